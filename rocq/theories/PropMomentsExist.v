(** The covariance that a solution reports is that of some stationary process. *)
From Verif Require Import Base Semantics Nd NdProofs NdInst SimSpec Sim Mat MatProofs MomentsSpec Moments MomentsProofs MomentsProofs2 MomentsExample MomentsExist PropMoments.
From Coq Require Import ZArith QArith Qcanon Ring.
Local Open Scope nat_scope.

Section Semidefinite.
  Variable F : Type.
  Variable O : rops F.
  Hypothesis RT : is_ring O.
  Let RT' : ring_theory (r0 O) (r1 O) (radd O) (rmul O) (rsub O) (ropp O) eq := RT.
  Add Ring SemiRing : RT'.
  Notation rsum := (Nd.rsum F O).

  Lemma comb_variance (R : randoms F) (LR : lawful F O R) n a x :
    covariance R (comb R n a x) (comb R n a x) = rsum n (fun i => rsum n (fun j => rmul O (a i) (rmul O (covariance R (x i) (x j)) (a j)))).
  Proof using RT.
    rewrite (cv_comb F O R LR); apply rsum_ext; intros i Hi; rewrite (cv_comb_r F O R LR), <- (rsum_mul_l F O RT).
    apply rsum_ext; intros j Hj; ring.
  Qed.
  (** A vector over some of the variables, as one over all. *)
  Definition placed (n : nat) (at_ : nat -> nat) (a : nat -> F) (v : nat) : F := rsum n (fun j => if at_ j =? v then a j else r0 O).
  Lemma placed_sum n at_ a N f : (forall j, j < n -> at_ j < N) ->
    rsum N (fun v => rmul O (placed n at_ a v) (f v)) = rsum n (fun j => rmul O (a j) (f (at_ j))).
  Proof using RT.
    intros H; unfold placed.
    rewrite (rsum_ext F O N _ (fun v => rsum n (fun j => if at_ j =? v then rmul O (a j) (f v) else r0 O))).
    2: { intros v Hv; rewrite <- (rsum_mul_r F O RT); apply rsum_ext; intros j Hj; destruct (at_ j =? v); ring. }
    rewrite (rsum_swap F O RT); apply rsum_ext; intros j Hj; rewrite (rsum_single F O RT N (at_ j) _ (H j Hj)).
    - rewrite Nat.eqb_refl; reflexivity.
    - intros v Hv Ne; destruct (Nat.eqb_spec (at_ j) v); [congruence|reflexivity].
  Qed.
End Semidefinite.

(** When the shocks' covariance matrix is symmetric there is a stationary process with the
    reported covariance; there is one with variances that are not negative exactly when the
    matrix of the shocks and the reported one are positive semidefinite. *)
Theorem C44_exists :
  forall (F : Type) (O : rops F) (lyap : nat -> mat F -> mat F -> res (mat F)) (g : rule F) (m : smodel F) (s : lsol F) (c : nd F),
  is_ring O -> solves_lyapunov F O lyap -> has_rule F g m s -> 1 < rn g -> stable F O g ->
  (forall i j, i < rk g -> j < rk g -> m_sigma m i j = m_sigma m j i) ->
  cov F O lyap (Ok tt) m s = Ok c ->
  exists C, c = M2 (rn g) (rn g) C /\
    (exists (R : randoms F) y u, lawful F O R /\ follows F O R g (m_sigma m) y u /\ stationary F R g y /\
       forall t v w, v < rn g -> w < rn g -> C v w = covariance R (y t v) (y t w)) /\
    (forall le : F -> F -> Prop, is_ordered O le ->
     (exists (R : randoms F) y u, lawful F O R /\ MomentsSpec.positive F O le R /\ follows F O R g (m_sigma m) y u /\ stationary F R g y) <->
     semidefinite F O le (rk g) (m_sigma m) /\ semidefinite F O le (rn g) C).
Proof.
  intros F O lyap g m s c RT HL HR Hn Sb Sy E; destruct (C44_partial F O lyap g m s c RT HL HR Hn Sb E) as (C & EC & HC & _).
  destruct (cov_ok F O lyap HL g m s HR Hn c E) as (X & HX & _).
  pose proof (solution_sym F O RT g m Sb X Sy HX) as SX.
  assert (W : proper g) by apply HR.
  pose proof (full_lawful F O RT g (m_sigma m) X Sy SX) as LR.
  pose proof (next_follows F O RT g W (m_sigma m) X Sy SX) as Fo.
  pose proof (next_stationary F O RT g W (m_sigma m) X Sy SX HX) as St.
  exists C; split; [exact EC|]; split.
  - exists (full F O g (m_sigma m) X), (later (path F O g (m_sigma m) X)), (later (nu F O g (m_sigma m) X)).
    split; [exact LR|]; split; [exact Fo|]; split; [exact St|]; intros t v w Hv Hw; apply (HC _ _ _ LR Fo St); assumption.
  - intros le LO; split.
    + intros (R & y & u & L & P & Fo' & St'); split; intros x; change (Sum F O) with (Nd.rsum F O).
      * specialize (P (comb R (rk g) x (u 0))); rewrite (comb_variance F O RT R L) in P.
        erewrite rsum_ext; [exact P|]; intros i Hi; apply rsum_ext; intros j Hj; cbv beta.
        rewrite (f_now _ _ _ _ _ _ _ Fo') by assumption; reflexivity.
      * specialize (P (comb R (rn g) x (y 0))); rewrite (comb_variance F O RT R L) in P.
        erewrite rsum_ext; [exact P|]; intros i Hi; apply rsum_ext; intros j Hj; cbv beta.
        rewrite (HC R y u L Fo' St' 0 i j) by assumption; reflexivity.
    + intros (PS & PC); exists (full F O g (m_sigma m) X), (later (path F O g (m_sigma m) X)), (later (nu F O g (m_sigma m) X)).
      split; [exact LR|]; split; [|split; [exact Fo|exact St]].
      apply (full_positive F O RT); [exact LO| |exact PS].
      intros a; specialize (PC (placed F O (rs g) (state_at g) a)); change (Sum F O) with (Nd.rsum F O) in PC.
      assert (BS : forall j, j < rs g -> state_at g j < rn g) by (intros j Hj; apply (state_lt F g W j Hj)).
      replace (bil F O (rs g) X a a) with (Nd.rsum F O (rn g) (fun i => Nd.rsum F O (rn g) (fun j =>
        rmul O (placed F O (rs g) (state_at g) a i) (rmul O (C i j) (placed F O (rs g) (state_at g) a j))))); [exact PC|].
      rewrite (rsum_ext F O (rn g) _ (fun i => rmul O (placed F O (rs g) (state_at g) a i) (Nd.rsum F O (rs g) (fun j => rmul O (a j) (C i (state_at g j)))))).
      2: { intros i Hi; rewrite <- (placed_sum F O RT (rs g) (state_at g) a (rn g) (C i) BS), <- (rsum_mul_l F O RT).
           apply rsum_ext; intros j Hj; f_equal; apply (Rmul_comm RT). }
      rewrite (placed_sum F O RT (rs g) (state_at g) a (rn g) _ BS); unfold bil; apply rsum_ext; intros i Hi.
      rewrite <- (rsum_mul_l F O RT); apply rsum_ext; intros j Hj; f_equal; rewrite (Rmul_comm RT); f_equal.
      rewrite (HC _ _ _ LR Fo St 0) by (apply BS; assumption).
      exact (states_var F O RT g W (m_sigma m) X Sy SX HX 1 i j Hi Hj).
Qed.
Print Assumptions C44_exists.

(** The example of PropMoments: the reported covariance is positive semidefinite. *)
Example C44_exists_nonvacuous :
  has_rule Qc ar ar_model ar_sol /\ stable Qc QO ar /\
  (forall i j, i < rk ar -> j < rk ar -> m_sigma ar_model i j = m_sigma ar_model j i) /\
  exists C, cov Qc QO lyapD (Ok tt) ar_model ar_sol = Ok (M2 2 2 C) /\ semidefinite Qc QO Qcle 2 C /\ C 0 1 <> r0 QO.
Proof.
  split; [exact ar_rule|]; split; [exact ar_stable|]; split; [intros [|i] [|j] Hi Hj; cbn in Hi, Hj; [reflexivity|lia..]|].
  destruct (cov Qc QO lyapD (Ok tt) ar_model ar_sol) as [c|e] eqn:E.
  2: { exfalso; apply (f_equal (fun x => match x with Ok _ => true | Err _ => false end)) in E; vm_compute in E; discriminate E. }
  destruct (C44_exists Qc QO lyapD ar ar_model ar_sol c Q_ring lyapD_solves ar_rule (le_n 2) ar_stable) as (C & -> & _ & H); [|exact E|].
  { intros [|i] [|j] Hi Hj; cbn in Hi, Hj; [reflexivity|lia..]. }
  exists C; split; [reflexivity|]; split.
  - apply (H Qcle Q_ordered); destruct ar_process as (P1 & P0 & P2 & P3); exists ar_R, ar_y, ar_u; split; [exact P1|]; split; [exact P0|]; split; [exact P2|exact P3].
  - apply (f_equal (fun x => match x with Ok (M2 _ _ f) => this (f 0 1) | _ => this (Q2Qc 0) end)) in E.
    intros Z; rewrite Z in E; vm_compute in E; discriminate E.
Qed.
