(** Concrete stationary processes over the rational numbers, and solvers that meet what is
    assumed of scipy's. *)
From Verif Require Import Base Nd NdProofs NdInst SimSpec Mat MatProofs MomentsSpec Moments MomentsProofs.
From Verif Require Indexing.
From Coq Require Import ZArith QArith Qcanon Ring Field Permutation.
Local Open Scope nat_scope.

(** ** Random variables as combinations of uncorrelated ones with variances [w 0], [w 1], ... *)

Section Space.
  Variable w : nat -> Qc.
  Fixpoint padd (x y : list Qc) : list Qc :=
    match x, y with [], _ => y | _, [] => x | a :: x', b :: y' => Qcplus a b :: padd x' y' end.
  Fixpoint pcov (i : nat) (x y : list Qc) : Qc :=
    match x, y with a :: x', b :: y' => Qcplus (Qcmult (w i) (Qcmult a b)) (pcov (S i) x' y') | _, _ => Q2Qc 0 end.
  Definition space : randoms Qc := Randoms (list Qc) [] padd (fun a => map (Qcmult a)) (pcov 0).
  Fixpoint basis (i : nat) : list Qc := match i with 0 => [Q2Qc 1] | S i' => Q2Qc 0 :: basis i' end.

  Lemma space_lawful : lawful Qc QO space.
  Proof.
    constructor; cbn.
    - assert (H : forall x y i, pcov i x y = pcov i y x); [|intros; apply H].
      induction x as [|a x IH]; intros [|b y] i; cbn; try reflexivity; rewrite IH, (Qcmult_comm a b); reflexivity.
    - reflexivity.
    - assert (H : forall x y z i, pcov i (padd x y) z = Qcplus (pcov i x z) (pcov i y z)); [|intros; apply H].
      induction x as [|a x IH]; intros [|b y] [|c z] i; cbn; rewrite ?IH; cbn; try ring.
    - assert (H : forall a x z i, pcov i (map (Qcmult a) x) z = Qcmult a (pcov i x z)); [|intros; apply H].
      intros a; induction x as [|b x IH]; intros [|c z] i; cbn; rewrite ?IH; ring.
  Qed.
  Lemma space_positive : (forall i, Qcle (Q2Qc 0) (w i)) -> MomentsSpec.positive Qc QO Qcle space.
  Proof.
    intros Hw x; cbn; generalize 0; induction x as [|a x IH]; intros i; cbn; [apply Qcle_refl|].
    rewrite <- (Qcplus_0_l (Q2Qc 0)); apply Qcplus_le_compat; [|apply IH].
    destruct Q_ordered as [_ _ T _ M]; cbn in T, M; apply M; [apply Hw|].
    destruct (T (Q2Qc 0) a) as [H|H]; [apply M; exact H|].
    replace (Qcmult a a) with (Qcmult (Qcopp a) (Qcopp a)) by ring.
    assert (K : Qcle (Q2Qc 0) (Qcopp a)) by (apply (Qcopp_le_compat a (Q2Qc 0)) in H; exact H).
    apply M; exact K.
  Qed.
  Lemma cov_basis j : forall x i, pcov i x (basis j) = Qcmult (w (i + j)) (nth j x (Q2Qc 0)).
  Proof.
    induction j as [|j IH]; intros [|a x] i; cbn [basis pcov nth]; rewrite ?Nat.add_0_r; try ring.
    - destruct x; cbn; ring.
    - rewrite IH; replace (S i + j) with (i + S j) by lia; ring.
  Qed.
  Lemma basis_nth i : forall j, nth j (basis i) (Q2Qc 0) = if j =? i then Q2Qc 1 else Q2Qc 0.
  Proof. induction i as [|i IH]; intros [|j]; cbn; [reflexivity|destruct j; reflexivity|reflexivity|apply IH]. Qed.
End Space.

(** ** A stationary process for a rule, when shocks and states are uncorrelated *)

Lemma argsort_position order n i : Permutation order (seq 0 n) -> i < n -> nth (nth i order 0) (Indexing.argsort order) 0 = i.
Proof.
  intros P Hi; assert (L : List.length order = n) by (rewrite (Permutation_length P); apply seq_length).
  assert (Hv : nth i order 0 < n) by (assert (I : In (nth i order 0) (seq 0 n)) by (apply (Permutation_in _ P), nth_In; lia); apply in_seq in I; lia).
  destruct (argsort_nth order n _ P Hv) as (E & B).
  apply (proj1 (NoDup_nth order 0) (Permutation_NoDup (Permutation_sym P) (seq_NoDup n 0))); [lia|lia|exact E].
Qed.

Definition diagonal (x : nat -> Qc) : mat Qc := fun l m => if l =? m then x l else Q2Qc 0.

Section Process.
  Variable g : rule Qc.
  Hypothesis W : proper g.
  Variable s : nat -> Qc.        (* variances of the shocks *)
  Variable V : nat -> Qc.        (* variances of the states *)
  Notation k := (rk g).
  Definition next_var : mat Qc :=
    madd Qc QO (mmul Qc QO (rs g) (A Qc g) (mmul Qc QO (rs g) (diagonal V) (mtr Qc (A Qc g)))) (mmul Qc QO k (B Qc g) (mmul Qc QO k (diagonal s) (mtr Qc (B Qc g)))).
  Hypothesis HV : forall i j, i < rs g -> j < rs g -> next_var i j = diagonal V i j.

  Definition weights (j : nat) : Qc := if j <? rs g then V j else s ((j - rs g) mod k).
  Definition R : randoms Qc := space weights.
  Definition eps (t l : nat) : rv R := basis (rs g + (t * k + l)).
  Definition start (v : nat) : rv R :=
    match find (fun j => state_at g j =? v) (seq 0 (rs g)) with Some j => basis j | None => rv_zero R end.
  Fixpoint run (t : nat) (v : nat) : rv R :=
    match t with
    | 0 => start v
    | S t' => let i := nth v (Indexing.argsort (rorder g)) 0 in
        rv_plus R (comb R (rs g) (ry g i) (fun j => run t' (state_at g j))) (comb R k (ru g i) (eps t'))
    end.
  Lemma eps_inj t t' l m : l < k -> m < k -> t * k + l = t' * k + m -> t = t' /\ l = m.
  Proof using.
    intros Hl Hm E; assert (t = t').
    { transitivity ((t * k + l) / k); [rewrite Nat.div_add_l, Nat.div_small by lia; lia|]; rewrite E, Nat.div_add_l, Nat.div_small by lia; lia. }
    subst t'; split; [reflexivity|lia].
  Qed.
  Lemma eps_cov t t' l m : l < k -> m < k -> covariance R (eps t l) (eps t' m) = if (t =? t') && (l =? m) then s l else Q2Qc 0.
  Proof using.
    intros Hl Hm; unfold R, eps, space; cbn [covariance]; rewrite cov_basis, basis_nth; cbn [plus]; unfold weights.
    destruct (Nat.ltb_spec (rs g + (t' * k + m)) (rs g)) as [C|_]; [lia|].
    replace (rs g + (t' * k + m) - rs g) with (m + t' * k) by lia; rewrite Nat.mod_add, Nat.mod_small by lia.
    destruct (Nat.eqb_spec (rs g + (t' * k + m)) (rs g + (t * k + l))) as [E|N].
    - destruct (eps_inj t' t m l Hm Hl ltac:(lia)) as (-> & ->); rewrite !Nat.eqb_refl; cbn [andb]; ring.
    - destruct (Nat.eqb_spec t t') as [->|]; [|cbn [andb]; ring]; destruct (Nat.eqb_spec l m) as [->|]; [congruence|cbn [andb]; ring].
  Qed.
  Lemma start_states v : start v = rv_zero R \/ exists j, j < rs g /\ start v = basis j.
  Proof using.
    unfold start; destruct (find _ _) as [j|] eqn:E; [|left; reflexivity]; right; exists j; split; [|reflexivity].
    apply find_some in E; destruct E as (E & _); apply in_seq in E; lia.
  Qed.
  Lemma state_inj i j : i < rs g -> j < rs g -> state_at g i = state_at g j -> i = j.
  Proof using W.
    destruct W as (P & L & ND & Bd & _); unfold state_at; intros Hi Hj E.
    assert (NO : NoDup (rorder g)) by (apply (Permutation_NoDup (Permutation_sym P)), seq_NoDup).
    assert (Ln : List.length (rorder g) = rn g) by (rewrite (Permutation_length P); apply seq_length).
    assert (E2 : nth i (rstate g) 0 = nth j (rstate g) 0).
    { apply (proj1 (NoDup_nth (rorder g) 0) NO); rewrite ?Ln; try (apply Bd, nth_In; lia); exact E. }
    apply (proj1 (NoDup_nth (rstate g) 0) ND); [lia|lia|exact E2].
  Qed.
  Lemma start_at j : j < rs g -> start (state_at g j) = basis j.
  Proof using W.
    intros Hj; unfold start; destruct (find _ _) as [i|] eqn:E.
    - apply find_some in E; destruct E as (E1 & E2); apply in_seq in E1; apply Nat.eqb_eq, state_inj in E2; [subst; reflexivity|lia|exact Hj].
    - exfalso; assert (K := find_none _ _ E j ltac:(apply in_seq; lia)); cbn beta in K; rewrite Nat.eqb_refl in K; discriminate.
  Qed.
  Lemma run_follows : follows Qc QO R g (diagonal s) run eps.
  Proof using W.
    constructor.
    - intros t i Hi; cbn [run]; unfold var_at; rewrite (argsort_position (rorder g) (rn g) i); [reflexivity|apply W|exact Hi].
    - intros t l m Hl Hm; rewrite eps_cov by assumption; rewrite Nat.eqb_refl; reflexivity.
    - intros t t' l m N Hl Hm; rewrite eps_cov by assumption; destruct (Nat.eqb_spec t t'); [contradiction|reflexivity].
    - intros t v l Hv Hl; unfold R, eps, space; cbn [covariance]; rewrite cov_basis; cbn [run].
      destruct (start_states v) as [->|(j & Hj & ->)]; cbn [rv_zero space R].
      + destruct (rs g + (t * k + l)); cbn; ring.
      + rewrite basis_nth; destruct (Nat.eqb_spec (rs g + (t * k + l)) j); [lia|cbn; ring].
  Qed.
  Lemma state_var t : meq Qc (rs g) (rs g) (D Qc R g run t) (diagonal V).
  Proof using W HV.
    induction t as [|t IH]; intros i j Hi Hj.
    - unfold D; cbn [run]; rewrite !start_at by assumption; unfold R, space; cbn [covariance]; rewrite cov_basis, basis_nth; cbn [plus]; unfold weights.
      rewrite (proj2 (Nat.ltb_lt _ _) Hj); unfold diagonal; rewrite (Nat.eqb_sym j i); destruct (Nat.eqb_spec i j) as [->|]; ring.
    - rewrite <- HV by assumption.
      rewrite (D_next Qc QO Q_ring R (space_lawful weights) g W (diagonal s) run eps run_follows t i j) by assumption.
      unfold next_var, Mat.madd; f_equal; unfold Mat.mmul; apply rsum_ext; intros a Ha; f_equal; apply rsum_ext; intros b Hb; rewrite IH by assumption; reflexivity.
  Qed.
  (** The process from its second period on. *)
  Definition later {T} (z : nat -> nat -> T) : nat -> nat -> T := fun t => z (S t).
  Lemma later_follows : follows Qc QO R g (diagonal s) (later run) (later eps).
  Proof using W.
    pose proof run_follows as Fo; constructor; unfold later.
    - intros t i Hi; apply (f_rule _ _ _ _ _ _ _ Fo); exact Hi.
    - intros t l m; apply (f_now _ _ _ _ _ _ _ Fo).
    - intros t t' l m N; apply (f_white _ _ _ _ _ _ _ Fo); lia.
    - intros t v l Hv Hl; apply (past_shock Qc QO Q_ring R (space_lawful weights) g W (diagonal s) run eps Fo); [lia|assumption..].
  Qed.
  Lemma later_stationary : stationary Qc R g (later run).
  Proof using W HV.
    intros t v z Hv Hz; unfold later.
    destruct (at_position Qc g W v Hv) as (i & Hi & <-); destruct (at_position Qc g W z Hz) as (j & Hj & <-).
    rewrite !(cov_next Qc QO Q_ring R (space_lawful weights) g W (diagonal s) run eps run_follows) by assumption.
    f_equal; unfold Mat.mmul; apply rsum_ext; intros a Ha; f_equal; apply rsum_ext; intros b Hb; rewrite !state_var by assumption; reflexivity.
  Qed.
  Lemma R_positive : (forall j, j < rs g -> Qcle (Q2Qc 0) (V j)) -> (forall l, Qcle (Q2Qc 0) (s l)) -> MomentsSpec.positive Qc QO Qcle R.
  Proof using. intros H1 H2; apply space_positive; intros i; unfold weights; destruct (Nat.ltb_spec i (rs g)); [apply H1; assumption|apply H2]. Qed.

  (** When the states do not move each other the rule is stable unless two roots multiply to one. *)
  Hypothesis Dg : forall i j, i < rs g -> j < rs g -> i <> j -> on_states Qc g i j = Q2Qc 0.
  Lemma diagonal_stable : (forall i j, i < rs g -> j < rs g -> Qcmult (on_states Qc g i i) (on_states Qc g j j) <> Q2Qc 1) -> stable Qc QO g.
  Proof using Dg.
    intros N Z HZ i j Hi Hj; specialize (HZ i j Hi Hj); change (SimSpec.Sum Qc QO) with (rsum Qc QO) in HZ.
    rewrite (rsum_single Qc QO Q_ring (rs g) i _ Hi) in HZ by (intros m Hm Ne; rewrite (Dg i m) by (assumption || congruence); cbn; ring).
    rewrite (rsum_single Qc QO Q_ring (rs g) j _ Hj) in HZ by (intros m Hm Ne; rewrite (Dg j m) by (assumption || congruence); cbn; ring).
    cbn [rmul QO] in HZ; set (x := on_states Qc g i i) in *; set (z := on_states Qc g j j) in *.
    assert (E : Qcmult (Qcminus (Q2Qc 1) (Qcmult x z)) (Z i j) = Q2Qc 0).
    { transitivity (Qcminus (Z i j) (Qcmult x (Qcmult (Z i j) z))); [ring|]; rewrite <- HZ; ring. }
    apply Qcmult_integral in E; destruct E as [E|E]; [|exact E]; exfalso; apply (N i j Hi Hj); fold x z.
    transitivity (Qcminus (Q2Qc 1) (Qcminus (Q2Qc 1) (Qcmult x z))); [ring|]; rewrite E; ring.
  Qed.
  Lemma diagonal_no_unit_root : (forall i, i < rs g -> on_states Qc g i i <> Q2Qc 1) -> no_unit_root Qc QO g.
  Proof using Dg.
    intros N x HX i Hi; specialize (HX i Hi); change (SimSpec.Sum Qc QO) with (rsum Qc QO) in HX.
    rewrite (rsum_single Qc QO Q_ring (rs g) i _ Hi) in HX by (intros m Hm Ne; rewrite (Dg i m) by (assumption || congruence); cbn; ring).
    cbn [rmul QO] in HX; set (z := on_states Qc g i i) in *.
    assert (E : Qcmult (Qcminus (Q2Qc 1) z) (x i) = Q2Qc 0) by (transitivity (Qcminus (x i) (Qcmult z (x i))); [ring|]; rewrite <- HX; ring).
    apply Qcmult_integral in E; destruct E as [E|E]; [|exact E]; exfalso; apply (N i Hi); fold z.
    transitivity (Qcminus (Q2Qc 1) (Qcminus (Q2Qc 1) z)); [ring|]; rewrite E; ring.
  Qed.
End Process.

(** A rule with one state: variable 1 moves with its own past, variable 0 with it *)
Definition one_state (k : nat) (a c : Qc) (b d : nat -> Qc) : rule Qc :=
  Rule 2 1 k (fun i _ => if i =? 0 then a else c) (fun i l => if i =? 0 then b l else d l) [1; 0] [0].
Lemma one_state_proper k a c b d : 0 < k -> proper (one_state k a c b d).
Proof.
  intros Hk; unfold proper, one_state; cbn; split; [apply perm_swap|]; split; [reflexivity|]; split; [constructor; [intros []|constructor]|].
  split; [intros x [<-|[]]; lia|]; lia.
Qed.
Lemma one_state_stable k a c b d : Qcmult a a <> Q2Qc 1 -> stable Qc QO (one_state k a c b d).
Proof. intros N; apply diagonal_stable; cbn; [intros; lia|]; intros [|i] [|j] Hi Hj; [exact N|lia..]. Qed.

(** ** Solvers for diagonal matrices *)

Definition diagonal_on (n : nat) (A : mat Qc) : bool :=
  forallb (fun i => forallb (fun j => (i =? j) || same (A i j) (Q2Qc 0)) (seq 0 n)) (seq 0 n).
Lemma diagonal_on_spec n A : diagonal_on n A = true -> forall i j, i < n -> j < n -> i <> j -> A i j = Q2Qc 0.
Proof.
  unfold diagonal_on; intros H i j Hi Hj N; rewrite forallb_forall in H; specialize (H i ltac:(apply in_seq; lia)); rewrite forallb_forall in H.
  specialize (H j ltac:(apply in_seq; lia)); apply Bool.orb_true_iff in H; destruct H as [H|H]; [apply Nat.eqb_eq in H; contradiction|exact (same_eq _ _ H)].
Qed.
Definition no_zero (n : nat) (f : nat -> nat -> Qc) : bool :=
  forallb (fun i => forallb (fun j => negb (same (f i j) (Q2Qc 0))) (seq 0 n)) (seq 0 n).
Lemma no_zero_spec n f : no_zero n f = true -> forall i j, i < n -> j < n -> f i j <> Q2Qc 0.
Proof.
  unfold no_zero; intros H i j Hi Hj; rewrite forallb_forall in H; specialize (H i ltac:(apply in_seq; lia)); rewrite forallb_forall in H.
  specialize (H j ltac:(apply in_seq; lia)); apply Bool.negb_true_iff in H; exact (same_neq _ _ H).
Qed.
Definition lyapD (n : nat) (A Q : mat Qc) : res (mat Qc) :=
  let den i j := Qcminus (Q2Qc 1) (Qcmult (A i i) (A j j)) in
  if diagonal_on n A && no_zero n den then Ok (fun i j => Qcdiv (Q i j) (den i j)) else Err ValueErr.
Lemma lyapD_solves : solves_lyapunov Qc QO lyapD.
Proof.
  intros n A Q X; unfold lyapD; destruct (diagonal_on n A) eqn:Ed; [|discriminate]; cbn [andb].
  destruct (no_zero n _) eqn:Ez; [|discriminate]; intros E; injection E as <-; intros i j Hi Hj.
  pose proof (diagonal_on_spec n A Ed) as D; pose proof (no_zero_spec n _ Ez i j Hi Hj) as N; cbn beta in N.
  change (SimSpec.Sum Qc QO) with (rsum Qc QO); rewrite (rsum_single Qc QO Q_ring n i _ Hi); [|intros m Hm Ne; rewrite (D i m) by (assumption || congruence); cbn; ring].
  rewrite (rsum_single Qc QO Q_ring n j _ Hj); [|intros m Hm Ne; rewrite (D j m) by (assumption || congruence); cbn; ring].
  cbn; field; exact N.
Qed.
Definition lsolveD (n : nat) (A : mat Qc) (b : vec Qc) : res (vec Qc) :=
  if diagonal_on n A && no_zero n (fun i _ => A i i) then Ok (fun i => Qcdiv (b i) (A i i)) else Err ValueErr.
Lemma lsolveD_solves : solves_linear Qc QO lsolveD.
Proof.
  intros n A b x; unfold lsolveD; destruct (diagonal_on n A) eqn:Ed; [|discriminate]; cbn [andb].
  destruct (no_zero n _) eqn:Ez; [|discriminate]; intros E; injection E as <-; intros i Hi.
  pose proof (diagonal_on_spec n A Ed) as D; pose proof (no_zero_spec n _ Ez i i Hi Hi) as N; cbn beta in N.
  change (SimSpec.Sum Qc QO) with (rsum Qc QO); rewrite (rsum_single Qc QO Q_ring n i _ Hi); [|intros m Hm Ne; rewrite (D i m) by (assumption || congruence); cbn; ring].
  cbn; field; exact N.
Qed.
(** The factor of a diagonal matrix with entries that are squares, given their roots. *)
Definition cholD (root : Qc -> Qc) (n : nat) (S : mat Qc) : res (mat Qc) :=
  if diagonal_on n S && forallb (fun i => same (Qcmult (root (S i i)) (root (S i i))) (S i i)) (seq 0 n)
  then Ok (fun i j => if i =? j then root (S i i) else Q2Qc 0) else Err ValueErr.
Lemma cholD_factors root : factors Qc QO (cholD root).
Proof.
  intros n S L; unfold cholD; destruct (diagonal_on n S) eqn:Ed; [|discriminate]; cbn [andb].
  destruct (forallb _ _) eqn:Er; [|discriminate]; intros E; injection E as <-.
  pose proof (diagonal_on_spec n S Ed) as D; rewrite forallb_forall in Er; split.
  - intros i j Hi Hj; change (SimSpec.Sum Qc QO) with (rsum Qc QO).
    rewrite (rsum_single Qc QO Q_ring n i _ Hi); [|intros m Hm Ne; destruct (Nat.eqb_spec i m); [congruence|cbn; ring]].
    rewrite Nat.eqb_refl; destruct (Nat.eqb_spec j i) as [->|Ne].
    + symmetry; apply same_eq, Er, in_seq; lia.
    + rewrite (D i j) by (assumption || congruence); cbn; ring.
  - intros i j Hi Hj Hij; destruct (Nat.eqb_spec i j); [lia|reflexivity].
Qed.
