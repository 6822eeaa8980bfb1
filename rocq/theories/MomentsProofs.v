(** Moments: the arrays that the code computes, and covariances of processes. *)
From Verif Require Import Base Semantics Nd NdProofs SimSpec Sim SimProofs3 Mat MatProofs MomentsSpec Moments SummaryProofs.
From Verif Require Indexing.
From Coq Require Import Ring Permutation Sorting.Sorted.

Lemma seq_sorted : forall m a, StronglySorted le (seq a m).
Proof.
  induction m as [|m IH]; intros a; cbn [seq]; constructor; [apply IH|].
  apply Forall_forall; intros i Hi; apply in_seq in Hi; lia.
Qed.
Lemma argsort_nth order n v : Permutation order (seq 0 n) -> v < n ->
  nth (nth v (Indexing.argsort order) 0) order 0 = v /\ nth v (Indexing.argsort order) 0 < n.
Proof.
  intros Hp Hv; assert (L : List.length order = n) by (rewrite (Permutation_length Hp); apply seq_length).
  assert (E : map (fun i => nth i order 0) (Indexing.argsort order) = seq 0 n) by (apply argsort_sorts; [apply seq_sorted|exact Hp]).
  assert (La : List.length (Indexing.argsort order) = n) by (rewrite argsort_length; exact L).
  split.
  - set (h := fun i => nth i order 0) in *; assert (X : nth v (map h (Indexing.argsort order)) (h 0) = nth v (seq 0 n) (h 0)) by (rewrite E; reflexivity).
    rewrite map_nth, seq_nth in X by lia; exact X.
  - rewrite <- L; apply argsort_bound, nth_In; lia.
Qed.
Lemma argsort_forallb order n : Permutation order (seq 0 n) -> forallb (fun i => i <? n) (Indexing.argsort order) = true.
Proof.
  intros Hp; apply forallb_forall; intros i Hi; apply Nat.ltb_lt; apply argsort_bound in Hi.
  rewrite (Permutation_length Hp), seq_length in Hi; exact Hi.
Qed.

Section Arrays.
  Variable F : Type.
  Variable O : rops F.
  Notation meq := (meq F).
  Notation mmul := (mmul F O).

  (** The array is a matrix of [r] rows and [c] columns with the given entries. *)
  Definition isM (r c : nat) (a : nd F) (f : mat F) : Prop := exists f', a = M2 r c f' /\ meq r c f' f.
  Lemma isM_refl r c f : isM r c (M2 r c f) f.
  Proof. exists f; split; reflexivity. Qed.
  Lemma isM_eq r c a f h : isM r c a f -> meq r c f h -> isM r c a h.
  Proof. intros (f' & E & H) K; exists f'; split; [exact E|]; rewrite H; exact K. Qed.
  Lemma isM_matmul r m c a b f h : isM r m a f -> isM m c b h -> exists p, nmatmul F O a b = Ok p /\ isM r c p (mmul m f h).
  Proof.
    intros (f' & -> & Hf) (h' & -> & Hh); cbn; rewrite Nat.eqb_refl; eexists; split; [reflexivity|].
    eexists; split; [reflexivity|]; intros i j Hi Hj; apply rsum_ext; intros k Hk; rewrite Hf, Hh by assumption; reflexivity.
  Qed.
  Lemma isM_trans r c a f : isM r c a f -> isM c r (ntrans F a) (mtr F f).
  Proof. intros (f' & -> & H); eexists; split; [reflexivity|]; intros i j Hi Hj; unfold mtr; apply H; assumption. Qed.
  Lemma axis_same n : axis n n = Some n.
  Proof. unfold axis; rewrite Nat.eqb_refl; reflexivity. Qed.
  Lemma at_lt n i : i < n -> at_ n i = i.
  Proof. unfold at_; destruct (Nat.eqb_spec n 1); lia. Qed.
  Lemma isM_elementwise (op : F -> F -> F) r c a b f h : isM r c a f -> isM r c b h ->
    exists p, elementwise F op a b = Ok p /\ isM r c p (fun i j => op (f i j) (h i j)).
  Proof.
    intros (f' & -> & Hf) (h' & -> & Hh); cbn; rewrite !axis_same; eexists; split; [reflexivity|].
    eexists; split; [reflexivity|]; intros i j Hi Hj; cbn beta; rewrite !(at_lt r i), !(at_lt c j), Hf, Hh by assumption; reflexivity.
  Qed.
  Lemma isM_add r c a b f h : isM r c a f -> isM r c b h -> exists p, nadd F O a b = Ok p /\ isM r c p (madd F O f h).
  Proof. apply isM_elementwise. Qed.
  Lemma isM_mm3 r m l c a b d f h k : isM r m a f -> isM m l b h -> isM l c d k ->
    exists p, mm3 F O a b d = Ok p /\ isM r c p (mmul m f (mmul l h k)).
  Proof.
    intros A B D; unfold mm3; destruct (isM_matmul _ _ _ _ _ _ _ B D) as (t & -> & T); cbn [bind].
    exact (isM_matmul _ _ _ _ _ _ _ A T).
  Qed.

  (** Rows of a squeezed matrix. *)
  Lemma take_rows idx n c f : 1 < n -> (forall i, In i idx -> i < n) ->
    exists a, take F idx (squeeze F (M2 n c f)) = Ok a /\
      ((c = 1 /\ exists h, a = V1 (List.length idx) h /\ forall i, i < List.length idx -> h i = f (nth i idx 0) 0) \/
       (c <> 1 /\ isM (List.length idx) c a (fun i => f (nth i idx 0)))).
  Proof.
    intros Hn H; assert (B : forallb (fun i => i <? n) idx = true) by (apply forallb_forall; intros i Hi; apply Nat.ltb_lt, H, Hi).
    unfold squeeze; destruct (Nat.eqb_spec n 1); [lia|]; destruct (Nat.eqb_spec c 1) as [->|Hc]; cbn [take]; rewrite B; eexists; split; try reflexivity.
    - left; split; [reflexivity|]; eexists; split; reflexivity.
    - right; split; [exact Hc|apply isM_refl].
  Qed.
  Lemma take_ensure idx n c f : 1 < n -> (forall i, In i idx -> i < n) ->
    exists a, take F idx (squeeze F (M2 n c f)) = Ok a /\ isM (List.length idx) c (ensure2 F a) (fun i => f (nth i idx 0)).
  Proof.
    intros Hn H; destruct (take_rows idx n c f Hn H) as (a & E & [(-> & h & -> & Hh)|(Hc & f' & -> & Hf)]);
      eexists; split; try exact E; cbn [ensure2]; eexists; split; try reflexivity; [|exact Hf].
    intros i j Hi Hj; replace j with 0 by lia; apply Hh, Hi.
  Qed.
  Lemma take_spread idx n c f : 1 < n -> (forall i, In i idx -> i < n) -> List.length idx = c ->
    exists a b, take F idx (squeeze F (M2 n c f)) = Ok a /\ spread2 F c c a = Ok b /\ isM c c b (fun i => f (nth i idx 0)).
  Proof.
    intros Hn H L; destruct (take_rows idx n c f Hn H) as (a & E & [(-> & h & -> & Hh)|(Hc & f' & -> & Hf)]); do 2 eexists; (split; [exact E|]).
    all: unfold spread2; cbn [rows cols]; rewrite ?L, ?Nat.eqb_refl; cbn [andb orb]; split; [reflexivity|].
    all: eexists; split; [reflexivity|]; intros i j Hi Hj; cbn [entry].
    - replace i with 0 by lia; replace j with 0 by lia; cbn; apply Hh; lia.
    - rewrite !at_lt by lia; apply Hf; lia.
  Qed.
End Arrays.

(** ** Processes *)

Section Processes.
  Variable F : Type.
  Variable O : rops F.
  Hypothesis RT : is_ring O.
  Let RT' : ring_theory (r0 O) (r1 O) (radd O) (rmul O) (rsub O) (ropp O) eq := RT.
  Add Ring MomRing : RT'.
  Notation rsum := (rsum F O).
  Notation mmul := (mmul F O).
  Notation madd := (madd F O).
  Notation meq := (meq F).

  Variable R : randoms F.
  Hypothesis LR : lawful F O R.
  Notation cv := (covariance R).

  Lemma cv_comb n a x z : cv (comb R n a x) z = rsum n (fun i => rmul O (a i) (cv (x i) z)).
  Proof.
    induction n as [|n IH]; cbn; [apply (cov_zero F O R LR)|].
    rewrite (cov_plus F O R LR), IH, (cov_scale F O R LR); reflexivity.
  Qed.
  Lemma cv_comb_r n a x z : cv z (comb R n a x) = rsum n (fun i => rmul O (a i) (cv z (x i))).
  Proof. rewrite (cov_sym F O R LR), cv_comb; apply rsum_ext; intros i _; rewrite (cov_sym F O R LR); reflexivity. Qed.
  Lemma cv_plus_r x y z : cv z (rv_plus R x y) = radd O (cv z x) (cv z y).
  Proof. rewrite (cov_sym F O R LR), (cov_plus F O R LR), !(cov_sym F O R LR z); reflexivity. Qed.

  Variable g : rule F.
  Hypothesis W : proper g.
  Variable Sg : mat F.
  Variable y u : nat -> nat -> rv R.
  Hypothesis Fo : follows F O R g Sg y u.

  Lemma order_perm : Permutation (rorder g) (seq 0 (rn g)).
  Proof. apply W. Qed.
  (** A variable is at a position of the order. *)
  Lemma at_position v : v < rn g -> exists i, i < rn g /\ var_at g i = v.
  Proof.
    intros Hv; destruct (argsort_nth _ _ _ order_perm Hv) as (E & L); exists (nth v (Indexing.argsort (rorder g)) 0); split; assumption.
  Qed.
  Lemma state_pos j : j < rs g -> nth j (rstate g) 0 < rn g.
  Proof. intros Hj; destruct W as (_ & L & _ & B & _); apply B, nth_In; lia. Qed.
  Lemma state_lt j : j < rs g -> state_at g j < rn g.
  Proof.
    intros Hj; unfold state_at; pose proof (state_pos j Hj) as B; pose proof order_perm as P.
    assert (I : In (nth (nth j (rstate g) 0) (rorder g) 0) (seq 0 (rn g))).
    { apply (Permutation_in _ P), nth_In; rewrite (Permutation_length P), seq_length; exact B. }
    apply in_seq in I; lia.
  Qed.

  (** The past does not move with the shocks to come. *)
  Lemma past_shock t : forall t' v l, t <= t' -> v < rn g -> l < rk g -> cv (y t v) (u t' l) = r0 O.
  Proof.
    induction t as [|t IH]; intros t' v l Ht Hv Hl; [apply (f_initial F O R g Sg y u Fo); assumption|].
    destruct (at_position v Hv) as (i & Hi & <-); rewrite (f_rule F O R g Sg y u Fo) by exact Hi.
    rewrite (cov_plus F O R LR), !cv_comb, !(rsum_all_zero F O RT); [ring| |].
    - intros m Hm; rewrite (f_white F O R g Sg y u Fo) by (assumption || lia); ring.
    - intros j Hj; rewrite IH; [ring|lia|apply state_lt, Hj|exact Hl].
  Qed.

  (** The covariance of the states. *)
  Definition D (t : nat) : mat F := fun a b => cv (y t (state_at g a)) (y t (state_at g b)).
  (** Covariances from one period to the next. *)
  Lemma cov_next t i j : i < rn g -> j < rn g ->
    cv (y (S t) (var_at g i)) (y (S t) (var_at g j)) =
    radd O (mmul (rs g) (ry g) (mmul (rs g) (D t) (mtr F (ry g))) i j) (mmul (rk g) (ru g) (mmul (rk g) Sg (mtr F (ru g))) i j).
  Proof.
    intros Hi Hj; rewrite !(f_rule F O R g Sg y u Fo) by assumption.
    rewrite (cov_plus F O R LR), !cv_comb; unfold Mat.mmul, mtr; f_equal; apply rsum_ext.
    - intros a Ha; f_equal; rewrite cv_plus_r, !cv_comb_r, (rsum_all_zero F O RT (rk g)).
      2: { intros l Hl; rewrite past_shock; [ring|lia|apply state_lt, Ha|exact Hl]. }
      transitivity (rsum (rs g) (fun b => rmul O (ry g j b) (D t a b))); [unfold D; ring|].
      apply rsum_ext; intros b _; ring.
    - intros l Hl; f_equal; rewrite cv_plus_r, !cv_comb_r, (rsum_all_zero F O RT (rs g)).
      2: { intros a Ha; rewrite (cov_sym F O R LR), past_shock; [ring|lia|apply state_lt, Ha|exact Hl]. }
      transitivity (rsum (rk g) (fun m => rmul O (ru g j m) (Sg l m))); [|apply rsum_ext; intros b _; ring].
      transitivity (rsum (rk g) (fun m => rmul O (ru g j m) (cv (u t l) (u t m)))); [ring|].
      apply rsum_ext; intros m Hm; rewrite (f_now F O R g Sg y u Fo) by assumption; reflexivity.
  Qed.

  Definition A : mat F := on_states F g.
  Definition B : mat F := fun i => ru g (nth i (rstate g) 0).
  Lemma D_next t : meq (rs g) (rs g) (D (S t))
    (madd (mmul (rs g) A (mmul (rs g) (D t) (mtr F A))) (mmul (rk g) B (mmul (rk g) Sg (mtr F B)))).
  Proof. intros a b Ha Hb; unfold D at 1; change (state_at g a) with (var_at g (nth a (rstate g) 0)); change (state_at g b) with (var_at g (nth b (rstate g) 0)); rewrite cov_next by (apply state_pos; assumption); reflexivity. Qed.

  Hypothesis St : stationary F R g y.
  Hypothesis Sb : stable F O g.
  Variable X : mat F.
  Hypothesis HX : meq (rs g) (rs g) X (madd (mmul (rs g) A (mmul (rs g) X (mtr F A))) (mmul (rk g) B (mmul (rk g) Sg (mtr F B)))).

  Lemma lyapunov_unique P Q Y Z : meq (rs g) (rs g) Y (madd (mmul (rs g) A (mmul (rs g) Y (mtr F A))) P) ->
    meq (rs g) (rs g) Z (madd (mmul (rs g) A (mmul (rs g) Z (mtr F A))) Q) -> meq (rs g) (rs g) P Q -> meq (rs g) (rs g) Y Z.
  Proof.
    intros HY HZ E i j Hi Hj.
    assert (H0 : forall i j, i < rs g -> j < rs g -> rsub O (Y i j) (Z i j) = r0 O).
    { apply (Sb (fun i j => rsub O (Y i j) (Z i j))); clear i j Hi Hj; intros i j Hi Hj; rewrite (HY i j), (HZ i j) by assumption.
      unfold Mat.madd; rewrite (E i j) by assumption; change (SimSpec.Sum F O) with rsum; unfold Mat.mmul, mtr, A.
      transitivity (rsub O (rsum (rs g) (fun a => rmul O (on_states F g i a) (rsum (rs g) (fun b => rmul O (Y a b) (on_states F g j b)))))
        (rsum (rs g) (fun a => rmul O (on_states F g i a) (rsum (rs g) (fun b => rmul O (Z a b) (on_states F g j b)))))); [ring|].
      rewrite <- (rsum_sub F O RT); apply rsum_ext; intros a _.
      transitivity (rmul O (on_states F g i a) (rsub O (rsum (rs g) (fun b => rmul O (Y a b) (on_states F g j b))) (rsum (rs g) (fun b => rmul O (Z a b) (on_states F g j b))))); [ring|].
      f_equal; rewrite <- (rsum_sub F O RT); apply rsum_ext; intros b _; ring. }
    transitivity (radd O (rsub O (Y i j) (Z i j)) (Z i j)); [ring|]; rewrite H0 by assumption; ring.
  Qed.

  Lemma D_stationary t : meq (rs g) (rs g) (D (S t)) (D t).
  Proof. intros a b Ha Hb; apply St; apply state_lt; assumption. Qed.
  Lemma D_X t : meq (rs g) (rs g) (D t) X.
  Proof.
    apply (lyapunov_unique (mmul (rk g) B (mmul (rk g) Sg (mtr F B))) (mmul (rk g) B (mmul (rk g) Sg (mtr F B)))); [|exact HX|reflexivity].
    rewrite <- D_stationary at 1; apply D_next.
  Qed.

  (** The covariance of the variables in any period. *)
  Lemma cov_process t i j : i < rn g -> j < rn g ->
    cv (y t (var_at g i)) (y t (var_at g j)) =
    radd O (mmul (rs g) (ry g) (mmul (rs g) X (mtr F (ry g))) i j) (mmul (rk g) (ru g) (mmul (rk g) Sg (mtr F (ru g))) i j).
  Proof.
    intros Hi Hj.
    assert (Hv : forall i, i < rn g -> var_at g i < rn g).
    { intros k Hk; unfold var_at; pose proof order_perm as P; assert (I : In (nth k (rorder g) 0) (seq 0 (rn g))) by (apply (Permutation_in _ P), nth_In; rewrite (Permutation_length P), seq_length; exact Hk); apply in_seq in I; lia. }
    rewrite <- (St t) by (apply Hv; assumption); rewrite cov_next by assumption; f_equal.
    unfold Mat.mmul; apply rsum_ext; intros a Ha; f_equal; apply rsum_ext; intros b Hb; f_equal; apply D_X; assumption.
  Qed.

  (** Covariances of the states with the variables of an earlier period. *)
  Definition obs (t h : nat) : mat F := fun a j => cv (y (t + h) (state_at g a)) (y t (var_at g j)).
  Lemma obs_0 t : meq (rs g) (rn g) (obs t 0)
    (madd (mmul (rs g) A (mmul (rs g) X (mtr F (ry g)))) (mmul (rk g) B (mmul (rk g) Sg (mtr F (ru g))))).
  Proof.
    intros a j Ha Hj; unfold obs; rewrite Nat.add_0_r; change (state_at g a) with (var_at g (nth a (rstate g) 0)).
    rewrite cov_process by (try apply state_pos; assumption); reflexivity.
  Qed.
  Lemma lag_next t h i v : i < rn g -> v < rn g ->
    cv (y (S (t + h)) (var_at g i)) (y t v) = rsum (rs g) (fun a => rmul O (ry g i a) (cv (y (t + h) (state_at g a)) (y t v))).
  Proof.
    intros Hi Hv; rewrite (f_rule F O R g Sg y u Fo) by exact Hi; rewrite (cov_plus F O R LR), !cv_comb, (rsum_all_zero F O RT (rk g)); [ring|].
    intros l Hl; rewrite (cov_sym F O R LR), past_shock; [ring|lia|exact Hv|exact Hl].
  Qed.
End Processes.
