(** Every rule with a covariance of its states has a stationary process. *)
From Verif Require Import Base Nd NdProofs SimSpec Mat MatProofs MomentsSpec Moments MomentsProofs MomentsExample OrderProofs.
From Verif Require Indexing.
From Coq Require Import Ring Permutation.

Section Exist.
  Variable F : Type.
  Variable O : rops F.
  Hypothesis RT : is_ring O.
  Let RT' : ring_theory (r0 O) (r1 O) (radd O) (rmul O) (rsub O) (ropp O) eq := RT.
  Add Ring ExistRing : RT'.
  Notation rsum := (rsum F O).
  Notation mmul := (mmul F O).
  Notation madd := (madd F O).
  Notation meq := (meq F).
  Notation vec := (nat -> F).

  Variable g : rule F.
  Hypothesis W : proper g.
  Variable Sg X : mat F.
  Notation k := (rk g).
  Notation n := (rs g).
  Hypothesis SS : forall i j, i < k -> j < k -> Sg i j = Sg j i.
  Hypothesis SX : forall i j, i < n -> j < n -> X i j = X j i.
  Hypothesis HX : meq n n X (madd (mmul n (A F g) (mmul n X (mtr F (A F g)))) (mmul k (B F g) (mmul k Sg (mtr F (B F g))))).

  (** a' M b *)
  Definition bil (d : nat) (M : mat F) (a b : vec) : F := rsum d (fun i => rsum d (fun j => rmul O (a i) (rmul O (M i j) (b j)))).
  Lemma bil_sym d M a b : (forall i j, i < d -> j < d -> M i j = M j i) -> bil d M a b = bil d M b a.
  Proof using RT.
    intros H; unfold bil; rewrite (rsum_swap F O RT); apply rsum_ext; intros i Hi; apply rsum_ext; intros j Hj; rewrite (H j i) by assumption; ring.
  Qed.
  Lemma bil_zero d M b : bil d M (fun _ => r0 O) b = r0 O.
  Proof using RT.
    unfold bil; rewrite (rsum_ext F O d _ (fun _ => r0 O)); [apply rsum_zero; assumption|].
    intros i Hi; rewrite (rsum_ext F O d _ (fun _ => r0 O)); [apply rsum_zero; assumption|intros j Hj; ring].
  Qed.
  Lemma bil_plus d M a a' b : bil d M (fun i => radd O (a i) (a' i)) b = radd O (bil d M a b) (bil d M a' b).
  Proof using RT.
    unfold bil; rewrite <- (rsum_add F O RT); apply rsum_ext; intros i Hi; rewrite <- (rsum_add F O RT); apply rsum_ext; intros j Hj; ring.
  Qed.
  Lemma bil_scale d M c a b : bil d M (fun i => rmul O c (a i)) b = rmul O c (bil d M a b).
  Proof using RT.
    unfold bil; rewrite <- (rsum_mul_l F O RT); apply rsum_ext; intros i Hi; rewrite <- (rsum_mul_l F O RT); apply rsum_ext; intros j Hj; ring.
  Qed.
  Definition unit (i : nat) : vec := fun j => if j =? i then r1 O else r0 O.
  Lemma bil_unit d M i j : i < d -> j < d -> bil d M (unit i) (unit j) = M i j.
  Proof using RT.
    intros Hi Hj; unfold bil; rewrite (rsum_single F O RT d i _ Hi).
    - rewrite (rsum_single F O RT d j _ Hj); [unfold unit; rewrite !Nat.eqb_refl; ring|].
      intros m Hm N; unfold unit; destruct (Nat.eqb_spec m j); [congruence|ring].
    - intros m Hm N; rewrite (rsum_ext F O d _ (fun _ => r0 O)); [apply rsum_zero; assumption|].
      intros l Hl; unfold unit at 1; destruct (Nat.eqb_spec m i); [congruence|ring].
  Qed.

  (** A random variable: its loadings on the first states, and on the shocks of each period. *)
  Fixpoint zadd (x y : list vec) : list vec :=
    match x, y with [], _ => y | _, [] => x | a :: x', b :: y' => (fun i => radd O (a i) (b i)) :: zadd x' y' end.
  Fixpoint zcov (x y : list vec) : F :=
    match x, y with a :: x', b :: y' => radd O (bil k Sg a b) (zcov x' y') | _, _ => r0 O end.
  Definition full : randoms F :=
    Randoms (vec * list vec) (fun _ => r0 O, []) (fun x y => (fun i => radd O (fst x i) (fst y i), zadd (snd x) (snd y)))
      (fun a x => (fun i => rmul O a (fst x i), map (fun b i => rmul O a (b i)) (snd x)))
      (fun x y => radd O (bil n X (fst x) (fst y)) (zcov (snd x) (snd y))).

  Lemma full_lawful : lawful F O full.
  Proof using RT SS SX.
    constructor; cbn.
    - intros x y; f_equal; [apply bil_sym; exact SX|].
      generalize (snd y); induction (snd x) as [|a l IH]; intros [|b l']; cbn; try reflexivity; rewrite IH, (bil_sym k Sg a b SS); reflexivity.
    - intros z; rewrite bil_zero; ring.
    - intros x y z; rewrite bil_plus.
      assert (H : forall p q o, zcov (zadd p q) o = radd O (zcov p o) (zcov q o)).
      { induction p as [|a p IH]; intros [|b q] [|c o]; cbn; rewrite ?IH, ?bil_plus; ring. }
      rewrite H; ring.
    - intros a x z; rewrite bil_scale.
      assert (H : forall p o, zcov (map (fun b i => rmul O a (b i)) p) o = rmul O a (zcov p o)).
      { induction p as [|b p IH]; intros [|c o]; cbn; rewrite ?IH, ?bil_scale; ring. }
      rewrite H; ring.
  Qed.

  Fixpoint at_time (t : nat) (a : vec) : list vec := match t with 0 => [a] | S t' => (fun _ => r0 O) :: at_time t' a end.
  Lemma zcov_at t t' a b : zcov (at_time t a) (at_time t' b) = if t =? t' then bil k Sg a b else r0 O.
  Proof using RT.
    revert t'; induction t as [|t IH]; intros [|t']; cbn [at_time zcov Nat.eqb]; try rewrite IH.
    - ring.
    - unfold bil at 1; rewrite (rsum_ext F O k _ (fun _ => r0 O)); [rewrite (rsum_zero F O RT); ring|]. intros i Hi; rewrite (rsum_ext F O k _ (fun _ => r0 O)); [apply rsum_zero; assumption|intros j Hj; ring].
    - rewrite bil_zero; destruct (at_time t a); cbn; ring.
    - rewrite bil_zero; destruct (t =? t'); ring.
  Qed.

  (** The process, one period after states with covariance [X]. *)
  Definition nu (t l : nat) : rv full := (fun _ => r0 O, at_time t (unit l)).
  Definition from (v : nat) : rv full :=
    match find (fun j => state_at g j =? v) (seq 0 n) with Some j => (unit j, []) | None => rv_zero full end.
  Fixpoint path (t : nat) (v : nat) : rv full :=
    match t with
    | 0 => from v
    | S t' => let i := nth v (Indexing.argsort (rorder g)) 0 in
        rv_plus full (comb full n (ry g i) (fun j => path t' (state_at g j))) (comb full k (ru g i) (nu t'))
    end.
  Lemma nu_cov t t' l m : l < k -> m < k -> covariance full (nu t l) (nu t' m) = if t =? t' then Sg l m else r0 O.
  Proof using RT.
    intros Hl Hm; cbn; rewrite bil_zero, zcov_at; destruct (t =? t'); [rewrite bil_unit by assumption|]; ring.
  Qed.
  Lemma bil_zero_r d M a : bil d M a (fun _ => r0 O) = r0 O.
  Proof using RT.
    unfold bil; rewrite (rsum_ext F O d _ (fun _ => r0 O)); [apply rsum_zero; assumption|].
    intros i Hi; rewrite (rsum_ext F O d _ (fun _ => r0 O)); [apply rsum_zero; assumption|intros j Hj; ring].
  Qed.
  Lemma from_states v : snd (from v) = [].
  Proof using. unfold from; destruct (find _ _); reflexivity. Qed.
  Lemma states_inj i j : i < n -> j < n -> state_at g i = state_at g j -> i = j.
  Proof using W.
    destruct W as (P & L & ND & Bd & _); unfold state_at; intros Hi Hj E.
    assert (NO : NoDup (rorder g)) by (apply (Permutation_NoDup (Permutation_sym P)), seq_NoDup).
    assert (Ln : List.length (rorder g) = rn g) by (rewrite (Permutation_length P); apply seq_length).
    assert (E2 : nth i (rstate g) 0 = nth j (rstate g) 0).
    { apply (proj1 (NoDup_nth (rorder g) 0) NO); rewrite ?Ln; try (apply Bd, nth_In; lia); exact E. }
    apply (proj1 (NoDup_nth (rstate g) 0) ND); [lia|lia|exact E2].
  Qed.
  Lemma from_at j : j < n -> from (state_at g j) = (unit j, []).
  Proof using W.
    intros Hj; unfold from; destruct (find _ _) as [i|] eqn:E.
    - apply find_some in E; destruct E as (E1 & E2); apply in_seq in E1; apply Nat.eqb_eq, states_inj in E2; [subst; reflexivity|lia|exact Hj].
    - exfalso; assert (K := find_none _ _ E j ltac:(apply in_seq; lia)); cbn beta in K; rewrite Nat.eqb_refl in K; discriminate.
  Qed.
  Lemma path_follows : follows F O full g Sg path nu.
  Proof using RT W.
    constructor.
    - intros t i Hi; cbn [path]; unfold var_at; rewrite (argsort_position (rorder g) (rn g) i); [reflexivity|apply W|exact Hi].
    - intros t l m Hl Hm; rewrite nu_cov by assumption; rewrite Nat.eqb_refl; reflexivity.
    - intros t t' l m N Hl Hm; rewrite nu_cov by assumption; destruct (Nat.eqb_spec t t'); [contradiction|reflexivity].
    - intros t v l Hv Hl; cbn [path]; cbn [covariance full nu fst snd]; rewrite from_states, bil_zero_r; cbn; ring.
  Qed.
  Lemma states_var t : meq n n (D F full g path t) X.
  Proof using RT W SS SX HX.
    induction t as [|t IH]; intros i j Hi Hj.
    - unfold D; cbn [path]; rewrite !from_at by assumption; cbn; rewrite bil_unit by assumption; ring.
    - rewrite (HX i j) by assumption.
      rewrite (D_next F O RT full full_lawful g W Sg path nu path_follows t i j) by assumption.
      unfold Mat.madd; f_equal; unfold Mat.mmul; apply rsum_ext; intros a Ha; f_equal; apply rsum_ext; intros b Hb; rewrite IH by assumption; reflexivity.
  Qed.
  Lemma next_follows : follows F O full g Sg (later path) (later nu).
  Proof using RT W SS SX.
    pose proof path_follows as Fo; constructor; unfold later.
    - intros t i Hi; apply (f_rule _ _ _ _ _ _ _ Fo); exact Hi.
    - intros t l m; apply (f_now _ _ _ _ _ _ _ Fo).
    - intros t t' l m N; apply (f_white _ _ _ _ _ _ _ Fo); lia.
    - intros t v l Hv Hl; apply (past_shock F O RT full full_lawful g W Sg path nu Fo); [lia|assumption..].
  Qed.
  Lemma next_stationary : stationary F full g (later path).
  Proof using RT W SS SX HX.
    intros t v z Hv Hz; unfold later.
    destruct (at_position F g W v Hv) as (i & Hi & <-); destruct (at_position F g W z Hz) as (j & Hj & <-).
    rewrite !(cov_next F O RT full full_lawful g W Sg path nu path_follows) by assumption.
    f_equal; unfold Mat.mmul; apply rsum_ext; intros a Ha; f_equal; apply rsum_ext; intros b Hb; rewrite !states_var by assumption; reflexivity.
  Qed.

  (** Variances are not negative when the two matrices are positive semidefinite. *)
  Variable le : F -> F -> Prop.
  Hypothesis LO : is_ordered O le.
  Lemma sum_positive a b : le (r0 O) a -> le (r0 O) b -> le (r0 O) (radd O a b).
  Proof using RT LO.
    intros Ha Hb; destruct LO as [_ T _ P _]; apply (T _ b); [exact Hb|].
    replace b with (radd O (r0 O) b) at 1 by ring; apply P; exact Ha.
  Qed.
  Lemma full_positive : (forall a, le (r0 O) (bil n X a a)) -> (forall a, le (r0 O) (bil k Sg a a)) -> MomentsSpec.positive F O le full.
  Proof using RT LO.
    intros H1 H2 x; cbn; apply sum_positive; [apply H1|].
    induction (snd x) as [|a l IH]; cbn; [destruct LO as [_ _ T _ _]; destruct (T (r0 O) (r0 O)); assumption|apply sum_positive; [apply H2|exact IH]].
  Qed.
End Exist.
