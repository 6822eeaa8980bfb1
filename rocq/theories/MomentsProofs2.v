(** Moments: what the code returns for a model with a given rule. *)
From Verif Require Import Base Semantics Nd NdProofs SimSpec Sim SimProofs3 Mat MatProofs MomentsSpec Moments MomentsProofs SummaryProofs.
From Verif Require Indexing.
From Coq Require Import Ring Permutation.

Section Code.
  Variable F : Type.
  Variable O : rops F.
  Hypothesis RT : is_ring O.
  Let RT' : ring_theory (r0 O) (r1 O) (radd O) (rmul O) (rsub O) (ropp O) eq := RT.
  Add Ring MomRing2 : RT'.
  Notation rsum := (rsum F O).
  Notation mmul := (mmul F O).
  Notation madd := (madd F O).
  Notation meq := (meq F).
  Notation isM := (isM F).
  Notation mtr := (mtr F).
  Variable lyap : nat -> mat F -> mat F -> res (mat F).
  Hypothesis HL : solves_lyapunov F O lyap.

  Variable g : rule F.
  Variable m : smodel F.
  Variable s : lsol F.
  (** A solved model: the rule [g] is its first-order solution. *)
  Definition has_rule : Prop := proper g /\ describes g m /\ gy_first F s = gy_of g /\ gu_first F s = gu_of g.
  Hypothesis HR : has_rule.
  Hypothesis Hn : 1 < rn g.
  Notation A := (A F g).
  Notation B := (B F g).
  Notation dc := (dc_order F m).
  Notation Sg := (m_sigma m).
  (** The rule with rows in the order of declaration. *)
  Definition Yd : mat F := fun v => ry g (nth v dc 0).
  Definition Ud : mat F := fun v => ru g (nth v dc 0).
  Notation Q := (mmul (rk g) B (mmul (rk g) Sg (mtr B))).

  Lemma HW : proper g. Proof. apply HR. Qed.
  Lemma order_g : m_order m = rorder g. Proof. apply HR. Qed.
  Lemma state_g : m_state m = rstate g. Proof. apply HR. Qed.
  Lemma shocks_g : List.length (m_shocks m) = rk g. Proof. apply HR. Qed.
  Lemma state_len : List.length (m_state m) = rs g. Proof. rewrite state_g; apply HW. Qed.
  Lemma dc_len : List.length dc = rn g.
  Proof. unfold dc_order; rewrite argsort_length, order_g, (Permutation_length (order_perm F g HW)); apply seq_length. Qed.
  Lemma dc_in i : In i dc -> i < rn g.
  Proof. unfold dc_order; intros H; apply argsort_bound in H; rewrite order_g, (Permutation_length (order_perm F g HW)), seq_length in H; exact H. Qed.
  Lemma dc_var v : v < rn g -> var_at g (nth v dc 0) = v /\ nth v dc 0 < rn g.
  Proof. intros Hv; unfold dc_order, var_at; rewrite order_g; apply argsort_nth; [exact (order_perm F g HW)|exact Hv]. Qed.
  Lemma state_in i : In i (m_state m) -> i < rn g.
  Proof. rewrite state_g; apply HW. Qed.

  Lemma kalman_ok : exists a b, kalman_transition F (Ok tt) m s = Ok (a, b) /\ isM (rs g) (rs g) a A /\ isM (rs g) (rk g) b B.
  Proof.
    destruct HR as (_ & _ & Ey & Eu); unfold kalman_transition; cbn [bind]; rewrite Ey, Eu.
    destruct (take_spread F (m_state m) (rn g) (rs g) (ry g) Hn state_in state_len) as (a & b & Ea & Eb & Hb).
    destruct (take_ensure F (m_state m) (rn g) (rk g) (ru g) Hn state_in) as (c & Ec & Hc).
    unfold gy_of, gu_of; rewrite Ea; cbn [bind]; rewrite state_len, Eb; cbn [bind]; rewrite Ec; cbn [bind].
    do 2 eexists; split; [reflexivity|]; split.
    - destruct Hb as (b' & -> & Hb); exists b'; split; [reflexivity|]; rewrite Hb, state_g; reflexivity.
    - rewrite state_len, state_g in Hc; exact Hc.
  Qed.
  Lemma sigma_ok : isM (rk g) (rk g) (sigma_of F m) Sg.
  Proof. unfold sigma_of; rewrite shocks_g; apply isM_refl. Qed.
  Lemma declared_ok : exists a b, declared F m s = Ok (a, b) /\ isM (rn g) (rs g) a Yd /\ isM (rn g) (rk g) b Ud.
  Proof.
    destruct HR as (_ & _ & Ey & Eu); unfold declared; rewrite Ey, Eu; unfold gy_of, gu_of.
    destruct (take_ensure F dc (rn g) (rs g) (ry g) Hn dc_in) as (a & -> & Ha).
    destruct (take_ensure F dc (rn g) (rk g) (ru g) Hn dc_in) as (b & -> & Hb).
    cbn [bind]; do 2 eexists; split; [reflexivity|]; rewrite dc_len in *; split; assumption.
  Qed.

  (** The covariance of the states: some solution of the Lyapunov equation. *)
  Definition solution (X : mat F) : Prop := meq (rs g) (rs g) X (madd (mmul (rs g) A (mmul (rs g) X (mtr A))) Q).
  Lemma lyapunov_ok a q v q0 : isM (rs g) (rs g) a A -> isM (rs g) (rs g) q q0 -> lyapunov F lyap a q = Ok v ->
    exists X, v = M2 (rs g) (rs g) X /\ meq (rs g) (rs g) X (madd (mmul (rs g) A (mmul (rs g) X (mtr A))) q0).
  Proof.
    intros (a' & -> & Ha) (q' & -> & Hq); unfold lyapunov; destruct (lyap (rs g) a' q') as [X|] eqn:E; cbn [bind]; [|discriminate].
    intros H; injection H as <-; exists X; split; [reflexivity|]; intros i j Hi Hj; rewrite (HL _ _ _ _ E i j Hi Hj).
    unfold Mat.madd; rewrite Hq by assumption; f_equal; unfold Mat.mmul, Mat.mtr; change (SimSpec.Sum F O) with rsum; apply rsum_ext; intros k Hk.
    rewrite Ha by assumption; f_equal; apply rsum_ext; intros l Hl; rewrite Ha by assumption; reflexivity.
  Qed.
  Lemma state_sigma_ok v : state_sigma F O lyap (Ok tt) m s = Ok v -> exists X, v = M2 (rs g) (rs g) X /\ solution X.
  Proof.
    unfold state_sigma; cbn [bind]; destruct kalman_ok as (a & b & -> & Ha & Hb); cbn [bind fst snd].
    destruct (isM_mm3 F O _ _ _ _ _ _ _ _ _ _ Hb sigma_ok (isM_trans _ _ _ _ _ Hb)) as (q & -> & Hq); cbn [bind].
    intros E; exact (lyapunov_ok _ _ _ _ Ha Hq E).
  Qed.
  Lemma state_sigma_runs : (forall a q, exists x, lyap (rs g) a q = Ok x) -> exists v, state_sigma F O lyap (Ok tt) m s = Ok v.
  Proof.
    intros H; unfold state_sigma; cbn [bind]; destruct kalman_ok as (a & b & -> & (a' & -> & Ha) & Hb); cbn [bind fst snd].
    destruct (isM_mm3 F O _ _ _ _ _ _ _ _ _ _ Hb sigma_ok (isM_trans _ _ _ _ _ Hb)) as (q & -> & (q' & -> & _)); cbn [bind lyapunov].
    destruct (H a' q') as (x & ->); cbn [bind]; eexists; reflexivity.
  Qed.

  Definition cov_matrix (X : mat F) : mat F :=
    madd (mmul (rs g) Yd (mmul (rs g) X (mtr Yd))) (mmul (rk g) Ud (mmul (rk g) Sg (mtr Ud))).
  Lemma cov_ok c : cov F O lyap (Ok tt) m s = Ok c -> exists X, solution X /\ isM (rn g) (rn g) c (cov_matrix X).
  Proof.
    unfold cov; destruct declared_ok as (y & u & -> & Hy & Hu); cbn [bind fst snd].
    destruct (state_sigma F O lyap (Ok tt) m s) as [v|] eqn:E; cbn [bind]; [|discriminate].
    destruct (state_sigma_ok v E) as (X & -> & HX); pose proof (isM_refl F (rs g) (rs g) X) as Hv.
    destruct (isM_mm3 F O _ _ _ _ _ _ _ _ _ _ Hy Hv (isM_trans _ _ _ _ _ Hy)) as (xt & -> & Hxt); cbn [bind].
    destruct (isM_mm3 F O _ _ _ _ _ _ _ _ _ _ Hu sigma_ok (isM_trans _ _ _ _ _ Hu)) as (ut & -> & Hut); cbn [bind].
    destruct (isM_add F O _ _ _ _ _ _ Hxt Hut) as (p & -> & Hp); intros H; injection H as <-; exists X; split; assumption.
  Qed.
  Lemma cov_runs v : state_sigma F O lyap (Ok tt) m s = Ok v -> exists c, cov F O lyap (Ok tt) m s = Ok c.
  Proof.
    intros E; unfold cov; destruct declared_ok as (y & u & -> & Hy & Hu); cbn [bind fst snd]; rewrite E; cbn [bind].
    destruct (state_sigma_ok v E) as (X & -> & HX); pose proof (isM_refl F (rs g) (rs g) X) as Hv.
    destruct (isM_mm3 F O _ _ _ _ _ _ _ _ _ _ Hy Hv (isM_trans _ _ _ _ _ Hy)) as (xt & -> & Hxt); cbn [bind].
    destruct (isM_mm3 F O _ _ _ _ _ _ _ _ _ _ Hu sigma_ok (isM_trans _ _ _ _ _ Hu)) as (ut & -> & Hut); cbn [bind].
    destruct (isM_add F O _ _ _ _ _ _ Hxt Hut) as (p & -> & Hp); eexists; reflexivity.
  Qed.

  (** Symmetry. *)
  Hypothesis Sb : stable F O g.
  Lemma quad_sym r c f h : (forall i j, i < c -> j < c -> h i j = h j i) ->
    forall i j, i < r -> j < r -> mmul c f (mmul c h (mtr f)) i j = mmul c f (mmul c h (mtr f)) j i.
  Proof using RT.
    intros H i j _ _; unfold Mat.mmul, Mat.mtr.
    transitivity (rsum c (fun a => rsum c (fun b => rmul O (f i a) (rmul O (h a b) (f j b))))).
    { apply rsum_ext; intros a _; rewrite (rsum_mul_l F O RT); reflexivity. }
    rewrite (rsum_swap F O RT); apply rsum_ext; intros b Hb; rewrite <- (rsum_mul_l F O RT); apply rsum_ext; intros a Ha; rewrite (H a b) by assumption; ring.
  Qed.
  Definition symmetric (S : mat F) : Prop := forall i j, i < rk g -> j < rk g -> S i j = S j i.
  Lemma solution_sym X : symmetric Sg -> solution X -> forall i j, i < rs g -> j < rs g -> X i j = X j i.
  Proof.
    intros S HX; apply (lyapunov_unique F O RT g Sb Q (mtr Q) X (mtr X)); [exact HX| |].
    - intros i j Hi Hj; unfold Mat.mtr at 1; rewrite (HX j i) by assumption; unfold Mat.madd; f_equal.
      unfold Mat.mmul, Mat.mtr.
      transitivity (rsum (rs g) (fun a => rsum (rs g) (fun b => rmul O (A j a) (rmul O (X a b) (A i b))))).
      { apply rsum_ext; intros a _; rewrite (rsum_mul_l F O RT); reflexivity. }
      rewrite (rsum_swap F O RT); apply rsum_ext; intros b Hb; rewrite <- (rsum_mul_l F O RT); apply rsum_ext; intros a Ha; ring.
    - intros i j Hi Hj; unfold Mat.mtr at 2; exact (quad_sym (rs g) (rk g) B Sg S i j Hi Hj).
  Qed.
  Lemma cov_matrix_sym X : symmetric Sg -> solution X -> forall v w, v < rn g -> w < rn g -> cov_matrix X v w = cov_matrix X w v.
  Proof.
    intros S HX v w Hv Hw; unfold cov_matrix, Mat.madd; f_equal; [apply (quad_sym (rn g)); [exact (solution_sym X S HX)|assumption..]|apply (quad_sym (rn g)); assumption].
  Qed.
  Lemma solution_unique X Y : solution X -> solution Y -> meq (rs g) (rs g) X Y.
  Proof. intros HX HY; apply (lyapunov_unique F O RT g Sb Q Q); [exact HX|exact HY|reflexivity]. Qed.

  (** Autocovariances. *)
  Fixpoint propagate (h : nat) (o : mat F) : mat F := match h with 0 => o | S h' => propagate h' (mmul (rs g) A o) end.
  Lemma propagate_eq h : forall o o', meq (rs g) (rn g) o o' -> meq (rs g) (rn g) (propagate h o) (propagate h o').
  Proof. induction h as [|h IH]; intros o o' H; [exact H|]; apply IH; rewrite H; reflexivity. Qed.
  Lemma propagate_S h : forall o, meq (rs g) (rn g) (propagate (S h) o) (mmul (rs g) A (propagate h o)).
  Proof. induction h as [|h IH]; intros o; [reflexivity|]; exact (IH (mmul (rs g) A o)). Qed.
  Definition obs0 (X : mat F) : mat F :=
    madd (mmul (rs g) A (mmul (rs g) X (mtr Yd))) (mmul (rk g) B (mmul (rk g) Sg (mtr Ud))).
  Lemma lags_ok p : forall gy a o f, isM (rn g) (rs g) gy Yd -> isM (rs g) (rs g) a A -> isM (rs g) (rn g) o f ->
    exists l, lags F O p gy a o = Ok l /\ List.length l = p /\
      forall i, i < p -> isM (rn g) (rn g) (nth i l (S0 (r0 O))) (mmul (rs g) Yd (propagate i f)).
  Proof.
    induction p as [|p IH]; intros gy a o f Hy Ha Ho; cbn [lags]; [eexists; repeat split; intros i Hi; lia|].
    destruct (isM_matmul F O _ _ _ _ _ _ _ Hy Ho) as (x & -> & Hx); cbn [bind].
    destruct (isM_matmul F O _ _ _ _ _ _ _ Ha Ho) as (o' & -> & Ho'); cbn [bind].
    destruct (IH _ _ _ _ Hy Ha Ho') as (l & -> & L & H); cbn [bind]; eexists; split; [reflexivity|]; split; [cbn; lia|].
    intros [|i] Hi; cbn [nth]; [exact Hx|apply H; lia].
  Qed.
  Lemma autocov_ok p l : autocov F O lyap (Ok tt) m s p = Ok l -> exists X, solution X /\ (0 <= p)%Z /\ List.length l = Z.to_nat p /\
    forall i, i < Z.to_nat p -> isM (rn g) (rn g) (nth i l (S0 (r0 O))) (mmul (rs g) Yd (propagate i (obs0 X))).
  Proof.
    unfold autocov; destruct (state_sigma F O lyap (Ok tt) m s) as [v|] eqn:E; cbn [bind]; [|discriminate].
    destruct (state_sigma_ok v E) as (X & -> & HX); pose proof (isM_refl F (rs g) (rs g) X) as Hv.
    destruct kalman_ok as (a & b & -> & Ha & Hb); cbn [bind fst snd].
    destruct declared_ok as (y & u & -> & Hy & Hu); cbn [bind fst snd].
    destruct (isM_mm3 F O _ _ _ _ _ _ _ _ _ _ Ha Hv (isM_trans _ _ _ _ _ Hy)) as (xt & -> & Hxt); cbn [bind].
    destruct (isM_mm3 F O _ _ _ _ _ _ _ _ _ _ Hb sigma_ok (isM_trans _ _ _ _ _ Hu)) as (ut & -> & Hut); cbn [bind].
    destruct (isM_add F O _ _ _ _ _ _ Hxt Hut) as (o & -> & Ho); cbn [bind].
    destruct (Z.ltb_spec p 0); [discriminate|].
    destruct (lags_ok (Z.to_nat p) _ _ _ _ Hy Ha Ho) as (l' & -> & L & Hl); intros H'; injection H' as <-.
    exists X; repeat split; assumption.
  Qed.
  Lemma autocov_runs v p : state_sigma F O lyap (Ok tt) m s = Ok v -> (0 <= p)%Z -> exists l, autocov F O lyap (Ok tt) m s p = Ok l.
  Proof.
    intros E Hp; unfold autocov; rewrite E; cbn [bind].
    destruct (state_sigma_ok v E) as (X & -> & HX); pose proof (isM_refl F (rs g) (rs g) X) as Hv.
    destruct kalman_ok as (a & b & -> & Ha & Hb); cbn [bind fst snd].
    destruct declared_ok as (y & u & -> & Hy & Hu); cbn [bind fst snd].
    destruct (isM_mm3 F O _ _ _ _ _ _ _ _ _ _ Ha Hv (isM_trans _ _ _ _ _ Hy)) as (xt & -> & Hxt); cbn [bind].
    destruct (isM_mm3 F O _ _ _ _ _ _ _ _ _ _ Hb sigma_ok (isM_trans _ _ _ _ _ Hu)) as (ut & -> & Hut); cbn [bind].
    destruct (isM_add F O _ _ _ _ _ _ Hxt Hut) as (o & -> & Ho); cbn [bind].
    destruct (Z.ltb_spec p 0); [lia|].
    destruct (lags_ok (Z.to_nat p) _ _ _ _ Hy Ha Ho) as (l' & -> & L & Hl); eexists; reflexivity.
  Qed.

  (** ** Against a process *)

  Variable R : randoms F.
  Hypothesis LR : lawful F O R.
  Variable y u : nat -> nat -> rv R.
  Hypothesis Fo : follows F O R g Sg y u.
  Hypothesis St : stationary F R g y.
  Notation cv := (covariance R).

  Lemma cov_is X : solution X -> forall t v w, v < rn g -> w < rn g -> cov_matrix X v w = cv (y t v) (y t w).
  Proof.
    intros HX t v w Hv Hw; destruct (dc_var v Hv) as (Ev & Lv); destruct (dc_var w Hw) as (Ew & Lw).
    rewrite <- Ev, <- Ew at 2; rewrite (cov_process F O RT R LR g HW Sg y u Fo St Sb X HX) by assumption; reflexivity.
  Qed.
  Lemma lag_is X : solution X -> forall t h v w, v < rn g -> w < rn g ->
    mmul (rs g) Yd (propagate h (obs0 X)) v w = cv (y (t + S h) v) (y t w).
  Proof.
    intros HX t h v w Hv Hw.
    assert (Ho : forall h, meq (rs g) (rn g) (propagate h (obs0 X)) (fun a w => cv (y (t + h) (state_at g a)) (y t w))).
    { clear h v w Hv Hw; induction h as [|h IH].
      - intros a w Ha Hw; cbn [propagate]; destruct (dc_var w Hw) as (Ew & Lw); rewrite <- Ew at 2.
        symmetry; exact (obs_0 F O RT R LR g HW Sg y u Fo St Sb X HX t a _ Ha Lw).
      - intros a w Ha Hw; rewrite propagate_S by assumption; rewrite Nat.add_succ_r; change (state_at g a) with (var_at g (nth a (rstate g) 0)).
        rewrite (lag_next F O RT R LR g HW Sg y u Fo) by (try apply (state_pos F g HW); assumption).
        unfold Mat.mmul; apply rsum_ext; intros b Hb; rewrite IH by assumption; reflexivity. }
    destruct (dc_var v Hv) as (Ev & Lv); rewrite <- Ev at 2; rewrite Nat.add_succ_r, (lag_next F O RT R LR g HW Sg y u Fo) by assumption.
    unfold Mat.mmul; apply rsum_ext; intros b Hb; rewrite Ho by assumption; reflexivity.
  Qed.
End Code.
