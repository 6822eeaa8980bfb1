(** Moments implied by a solution: properties C44-C46, C70 and C71. *)
From Verif Require Import Base Semantics Nd NdProofs NdInst SimSpec Sim SimProofs3 Mat MatProofs MomentsSpec Moments
  MomentsProofs MomentsProofs2 MomentsProofs3 MomentsProofs4 MomentsProofs5 MomentsExample.
From Coq Require Import ZArith QArith Qcanon Ring Field Permutation.
Local Open Scope nat_scope.

(** [has_rule F g m s]: the arrays of the solution [s] of the model [m] hold the rule [g]. *)

(** ** C44: the covariances are those of the stationary process *)

Theorem C44_partial :
  forall (F : Type) (O : rops F) (lyap : nat -> mat F -> mat F -> res (mat F)) (g : rule F) (m : smodel F) (s : lsol F) (c : nd F),
  is_ring O -> solves_lyapunov F O lyap -> has_rule F g m s -> 1 < rn g -> stable F O g ->
  cov F O lyap (Ok tt) m s = Ok c ->
  exists C, c = M2 (rn g) (rn g) C /\
    (forall (R : randoms F) y u, lawful F O R -> follows F O R g (m_sigma m) y u -> stationary F R g y ->
     forall t v w, v < rn g -> w < rn g -> C v w = covariance R (y t v) (y t w)) /\
    ((forall i j, i < rk g -> j < rk g -> m_sigma m i j = m_sigma m j i) ->
     forall v w, v < rn g -> w < rn g -> C v w = C w v).
Proof.
  intros F O lyap g m s c RT HL HR Hn Sb E; destruct (cov_ok F O lyap HL g m s HR Hn c E) as (X & HX & (C & -> & HC)).
  exists C; split; [reflexivity|]; split.
  - intros R y u LR Fo St t v w Hv Hw; rewrite HC by assumption; exact (cov_is F O RT g m s HR Sb R LR y u Fo St X HX t v w Hv Hw).
  - intros Sy v w Hv Hw; rewrite !HC by assumption; exact (cov_matrix_sym F O RT g m Sb X Sy HX v w Hv Hw).
Qed.
Print Assumptions C44_partial.

(** There is a value when the solution passes its checks and the equation can be solved; the
    error of the checks otherwise. *)
Theorem C44_defined :
  forall (F : Type) (O : rops F) (lyap : nat -> mat F -> mat F -> res (mat F)) (g : rule F) (m : smodel F) (s : lsol F),
  solves_lyapunov F O lyap -> has_rule F g m s -> 1 < rn g ->
  ((forall A Q, exists X, lyap (rs g) A Q = Ok X) -> exists c, cov F O lyap (Ok tt) m s = Ok c) /\
  (forall e, cov F O lyap (Err e) m s = Err e).
Proof.
  intros F O lyap g m s HL HR Hn; split.
  - intros H; destruct (state_sigma_runs F O lyap g m s HR Hn H) as (v & Ev); exact (cov_runs F O lyap HL g m s HR Hn v Ev).
  - intros e; unfold cov; destruct (declared_ok F g m s HR Hn) as (a & b & -> & _); reflexivity.
Qed.
Print Assumptions C44_defined.

(** A model of one variable has no covariance: the rule is stored without its dimensions. *)
Theorem C44_refuted :
  forall (F : Type) (O : rops F) (lyap : nat -> mat F -> mat F -> res (mat F)) (v : res unit) (g : rule F) (m : smodel F) (s : lsol F),
  has_rule F g m s -> rn g = 1 -> cov F O lyap v m s = Err IndexErr.
Proof.
  intros F O lyap v g m s (W & _ & Ey & _) E1; assert (Es : rs g = 1).
  { destruct W as (_ & L & ND & B & _ & P & _); destruct (rstate g) as [|a [|b l]] eqn:El; cbn in L; [lia|lia|].
    pose proof (B a (or_introl eq_refl)); pose proof (B b (or_intror (or_introl eq_refl))); inversion ND as [|? ? N _]; exfalso; apply N; left; lia. }
  unfold cov, declared; rewrite Ey; unfold gy_of; rewrite E1, Es; reflexivity.
Qed.
Print Assumptions C44_refuted.

(** ** Example: x' = x/2 + e, z' = x + 3 e; the variables are declared z, x *)

Definition r (a : Z) (b : positive) : Qc := Q2Qc (Qmake a b).
(** The entries of a result. *)
Definition table_of (a : nd Qc) : list (list Q) :=
  match a with S0 x => [[this x]] | V1 n f => [map (fun i => this (f i)) (seq 0 n)] | M2 n k f => map (fun i => map (fun j => this (f i j)) (seq 0 k)) (seq 0 n) end.
Definition shown {T S} (h : T -> S) (x : res T) : res S := do y <- x; Ok (h y).
Definition ar : rule Qc := one_state 1 (r 1 2) (r 1 1) (fun _ => r 1 1) (fun _ => r 3 1).
Definition ar_model : smodel Qc := SModel [r 1 1; r 2 1] [1; 0] [0] ["e"%string] (diagonal (fun _ => r 1 1)).
Definition ar_sol : lsol Qc := First (gy_of ar) (gu_of ar).
Lemma ar_rule : has_rule Qc ar ar_model ar_sol.
Proof. split; [apply one_state_proper; lia|]; repeat split. Qed.
Lemma ar_stable : stable Qc QO ar.
Proof. apply one_state_stable; apply same_neq; vm_compute; reflexivity. Qed.
Definition ar_R := R ar (fun _ => r 1 1) (fun _ => r 4 3).
Definition ar_y := later (run ar (fun _ => r 1 1) (fun _ => r 4 3)).
Definition ar_u := later (eps ar (fun _ => r 1 1) (fun _ => r 4 3)).
Lemma ar_process : lawful Qc QO ar_R /\ MomentsSpec.positive Qc QO Qcle ar_R /\
  follows Qc QO ar_R ar (m_sigma ar_model) ar_y ar_u /\ stationary Qc ar_R ar ar_y.
Proof.
  split; [apply space_lawful|]; split; [apply R_positive; [intros _ _|intros _]; intros H; discriminate H|].
  split; [apply later_follows; apply ar_rule|apply later_stationary; [apply ar_rule|]].
  intros i j Hi Hj; cbn in Hi, Hj; replace i with 0 by lia; replace j with 0 by lia; apply same_eq; vm_compute; reflexivity.
Qed.

Example C44_nonvacuous :
  has_rule Qc ar ar_model ar_sol /\ solves_lyapunov Qc QO lyapD /\ stable Qc QO ar /\
  (lawful Qc QO ar_R /\ follows Qc QO ar_R ar (m_sigma ar_model) ar_y ar_u /\ stationary Qc ar_R ar ar_y) /\
  shown table_of (cov Qc QO lyapD (Ok tt) ar_model ar_sol) = Ok [[Qmake 31 3; Qmake 11 3]; [Qmake 11 3; Qmake 4 3]].
Proof.
  split; [exact ar_rule|]; split; [exact lyapD_solves|]; split; [exact ar_stable|]; split; [split; [|split]; apply ar_process|].
  vm_compute; reflexivity.
Qed.

(** ** C45: autocovariances *)

(** Entry [i] is the covariance with the variables [i+1] periods ago. *)
Theorem C45_partial :
  forall (F : Type) (O : rops F) (lyap : nat -> mat F -> mat F -> res (mat F)) (g : rule F) (m : smodel F) (s : lsol F) (p : Z) (l : list (nd F)),
  is_ring O -> solves_lyapunov F O lyap -> has_rule F g m s -> 1 < rn g -> stable F O g ->
  autocov F O lyap (Ok tt) m s p = Ok l ->
  (0 <= p)%Z /\ List.length l = Z.to_nat p /\
  forall i, i < Z.to_nat p -> exists C, nth i l (S0 (r0 O)) = M2 (rn g) (rn g) C /\
    forall (R : randoms F) y u, lawful F O R -> follows F O R g (m_sigma m) y u -> stationary F R g y ->
    forall t v w, v < rn g -> w < rn g -> C v w = covariance R (y (t + S i) v) (y t w).
Proof.
  intros F O lyap g m s p l RT HL HR Hn Sb E; destruct (autocov_ok F O lyap HL g m s HR Hn p l E) as (X & HX & Hp & Ll & H).
  split; [exact Hp|]; split; [exact Ll|]; intros i Hi; destruct (H i Hi) as (C & EC & HC); exists C; split; [exact EC|].
  intros R y u LR Fo St t v w Hv Hw; rewrite HC by assumption; exact (lag_is F O RT g m s HR Sb R LR y u Fo St X HX t i v w Hv Hw).
Qed.
Print Assumptions C45_partial.

(** So entry 0 is not the covariance matrix, and entry 1 not the first autocovariance. *)
Theorem C45_refuted :
  exists (g : rule Qc) (m : smodel Qc) (s : lsol Qc) (R : randoms Qc) y u l C0 C1,
  has_rule Qc g m s /\ stable Qc QO g /\ lawful Qc QO R /\ follows Qc QO R g (m_sigma m) y u /\ stationary Qc R g y /\
  autocov Qc QO lyapD (Ok tt) m s 2 = Ok l /\ nth 0 l (S0 (r0 QO)) = M2 2 2 C0 /\ nth 1 l (S0 (r0 QO)) = M2 2 2 C1 /\
  C0 1 1 <> covariance R (y 0 1) (y 0 1) /\ C1 1 1 <> covariance R (y 1 1) (y 0 1).
Proof.
  destruct ar_process as (P1 & _ & P2 & P3).
  destruct (autocov Qc QO lyapD (Ok tt) ar_model ar_sol 2) as [l|e] eqn:E.
  2: { exfalso; apply (f_equal (fun x => match x with Ok _ => true | Err _ => false end)) in E; vm_compute in E; discriminate E. }
  destruct (C45_partial Qc QO lyapD ar ar_model ar_sol 2 l Q_ring lyapD_solves ar_rule (le_n 2) ar_stable E) as (_ & _ & H).
  destruct (H 0 ltac:(cbn; lia)) as (C0 & E0 & H0); destruct (H 1 ltac:(cbn; lia)) as (C1 & E1 & H1).
  exists ar, ar_model, ar_sol, ar_R, ar_y, ar_u, l, C0, C1; split; [exact ar_rule|]; split; [exact ar_stable|].
  split; [exact P1|]; split; [exact P2|]; split; [exact P3|]; split; [exact E|]; split; [exact E0|]; split; [exact E1|].
  rewrite (H0 ar_R ar_y ar_u P1 P2 P3 0 1 1) by (cbn; lia); rewrite (H1 ar_R ar_y ar_u P1 P2 P3 0 1 1) by (cbn; lia).
  split; apply same_neq; vm_compute; reflexivity.
Qed.
Print Assumptions C45_refuted.

Theorem C45_defined :
  forall (F : Type) (O : rops F) (lyap : nat -> mat F -> mat F -> res (mat F)) (g : rule F) (m : smodel F) (s : lsol F) (p : Z),
  solves_lyapunov F O lyap -> has_rule F g m s -> 1 < rn g -> (forall A Q, exists X, lyap (rs g) A Q = Ok X) -> (0 <= p)%Z ->
  exists l, autocov F O lyap (Ok tt) m s p = Ok l.
Proof.
  intros F O lyap g m s p HL HR Hn H Hp; destruct (state_sigma_runs F O lyap g m s HR Hn H) as (v & Ev).
  exact (autocov_runs F O lyap HL g m s HR Hn v p Ev Hp).
Qed.
Print Assumptions C45_defined.

(** Autocorrelations are the autocovariances over the standard deviations. *)
Theorem C45_correlations :
  forall (F : Type) (O : rops F) (lyap : nat -> mat F -> mat F -> res (mat F)) (sqrt : F -> F) (g : rule F) (m : smodel F) (s : lsol F) (p : Z) (l : list (nd F)),
  is_ring O -> solves_lyapunov F O lyap -> has_rule F g m s -> 1 < rn g -> stable F O g ->
  autocorr F O lyap sqrt (Ok tt) m s p = Ok l ->
  (0 <= p)%Z /\ List.length l = Z.to_nat p /\
  forall i, i < Z.to_nat p -> exists h, nth i l (S0 (r0 O)) = M2 (rn g) (rn g) h /\
    forall (R : randoms F) y u, lawful F O R -> follows F O R g (m_sigma m) y u -> stationary F R g y ->
    forall t v w, v < rn g -> w < rn g ->
    h v w = rdiv O (covariance R (y (t + S i) v) (y t w)) (rmul O (sqrt (covariance R (y t v) (y t v))) (sqrt (covariance R (y t w) (y t w)))).
Proof.
  intros F O lyap sqrt g m s p l RT HL HR Hn Sb E.
  destruct (autocov F O lyap (Ok tt) m s p) as [a|] eqn:Ea; [|unfold autocorr in E; rewrite Ea in E; discriminate].
  destruct (cov F O lyap (Ok tt) m s) as [c|] eqn:Ec.
  2: { unfold autocorr, std, var in E; rewrite Ea, Ec in E; discriminate. }
  destruct (C44_partial F O lyap g m s c RT HL HR Hn Sb Ec) as (C & EC & HC & _).
  destruct (C45_partial F O lyap g m s p a RT HL HR Hn Sb Ea) as (Hp & La & Ha).
  destruct (autocorr_ok F O lyap sqrt (rn g) (Ok tt) m s c C p a Ec EC Ea) as (l' & El & Ll & Hl).
  { intros i Hi; rewrite La in Hi; destruct (Ha i Hi) as (f & Ef & _); exists f; exact Ef. }
  rewrite E in El; injection El as <-; split; [exact Hp|]; split; [lia|]; intros i Hi; destruct (Hl i ltac:(lia)) as (f & h & Ef & Eh & H).
  exists h; split; [exact Eh|]; intros R y u LR Fo St t v w Hv Hw; rewrite (H v w Hv Hw), !(HC R y u LR Fo St t) by assumption.
  destruct (Ha i Hi) as (f' & Ef' & Hf'); rewrite Ef in Ef'; injection Ef' as ->; rewrite (Hf' R y u LR Fo St t v w Hv Hw); reflexivity.
Qed.
Print Assumptions C45_correlations.

Example C45_nonvacuous :
  has_rule Qc ar ar_model ar_sol /\ solves_lyapunov Qc QO lyapD /\ stable Qc QO ar /\
  shown (map table_of) (autocov Qc QO lyapD (Ok tt) ar_model ar_sol 2) =
    Ok [[[Qmake 11 3; Qmake 4 3]; [Qmake 11 6; Qmake 2 3]]; [[Qmake 11 6; Qmake 2 3]; [Qmake 11 12; Qmake 1 3]]].
Proof.
  split; [exact ar_rule|]; split; [exact lyapD_solves|]; split; [exact ar_stable|]; vm_compute; reflexivity.
Qed.

(** ** C46: variance decompositions *)

(** The shares are not negative and add up to one; the share of an orthogonal shock is its
    part of the variance, all with the perturbed covariance matrix. *)
Theorem C46_partial :
  forall (F : Type) (O : rops F) (inv : F -> F) (le : F -> F -> Prop) (lyap : nat -> mat F -> mat F -> res (mat F))
    (chol : nat -> mat F -> res (mat F)) (abs : F -> F) (g : rule F) (m : smodel F) (s : lsol F) (a : nd F),
  is_field O inv -> is_ordered O le -> solves_lyapunov F O lyap -> factors F O chol ->
  (forall x, le (r0 O) x -> abs x = x) -> (forall x, le x (r0 O) -> abs x = ropp O x) ->
  has_rule F g m s -> 1 < rn g -> stable F O g ->
  shares F O lyap chol abs (Ok tt) m s = Ok a ->
  exists L h, a = M2 (rn g) (rk g) h /\
    (forall i j, i < rk g -> j < rk g -> nudged F O (m_sigma m) i j = Sum F O (rk g) (fun c => rmul O (L i c) (L j c))) /\
    (forall i j, i < rk g -> j < rk g -> i < j -> L i j = r0 O) /\
    forall (R : randoms F) y u, lawful F O R -> follows F O R g (nudged F O (m_sigma m)) y u -> stationary F R g y ->
    forall v, v < rn g -> covariance R (y 0 v) (y 0 v) <> r0 O ->
    Sum F O (rk g) (h v) = r1 O /\ (forall i, i < rk g -> le (r0 O) (h v i)) /\
    forall (Rs : nat -> randoms F) ys us,
    (forall i, i < rk g -> lawful F O (Rs i) /\ MomentsSpec.positive F O le (Rs i) /\
       follows F O (Rs i) g (by_column F O L i) (ys i) (us i) /\ stationary F (Rs i) g (ys i)) ->
    forall i, i < rk g -> h v i = rdiv O (covariance (Rs i) (ys i 0 v) (ys i 0 v)) (covariance R (y 0 v) (y 0 v)).
Proof.
  intros F O inv le lyap chol abs g m s a FT OT HL HC A1 A2 HR Hn Sb E.
  assert (HA : (forall x, le (r0 O) x -> abs x = x) /\ (forall x, le x (r0 O) -> abs x = ropp O x)) by (split; assumption).
  destruct (shares_ok F O inv FT lyap HL chol abs g m s HR Hn a E) as (L & X & h & EL & HX & -> & Hh).
  destruct (HC _ _ _ EL) as (HP & Up).
  exists L, h; split; [reflexivity|]; split; [intros i j Hi Hj; rewrite <- (perturbed_nudged F O inv FT); apply HP; assumption|]; split; [exact Up|].
  intros R y u LR Fo St v Hv Nv.
  assert (Fo' : follows F O R g (perturbed F O m) y u) by (apply (follows_ext F O g (nudged F O (m_sigma m))); [intros; symmetry; apply (perturbed_nudged F O inv FT)|exact Fo]).
  (* the stationary covariance of the states solves the equation *)
  assert (HY : solution_for F O g (perturbed F O m) (D F R g y 0)).
  { intros i j Hi Hj; transitivity (D F R g y 1 i j).
    - unfold D; symmetry; apply St; apply (state_lt F g (proj1 HR)); assumption.
    - apply (D_next F O (F_R FT) R LR g (proj1 HR) _ y u Fo'); assumption. }
  pose proof (parts_total F O inv FT chol HC g m Sb L X _ EL HX HY v Hv) as Tot.
  rewrite (variance_is F O inv FT g m s _ _ R y u HR Sb LR Fo' St HY 0 v Hv) in Tot.
  set (parts := fun i => variance F O g m (only F O L i) (X i) v) in *.
  assert (Nn : forall i, i < rk g -> le (r0 O) (abs (parts i))) by (intros i _; apply (abs_nonneg F O inv FT le OT abs HA)).
  assert (Nz : rsum F O (rk g) (fun j => abs (parts j)) <> r0 O).
  { intros Z; apply Nv; rewrite <- Tot; apply (rsum_all_zero F O (F_R FT)); intros i Hi.
    apply (abs_zero F O inv FT le OT abs HA); exact (sum_zero F O inv FT le OT (rk g) (fun j => abs (parts j)) Nn Z i Hi). }
  split; [|split].
  - transitivity (rsum F O (rk g) (fun i => rdiv O (abs (parts i)) (rsum F O (rk g) (fun j => abs (parts j))))).
    { apply rsum_ext; intros i Hi; exact (Hh v i Hv Hi). }
    rewrite (sum_div F O inv FT) by exact Nz; rewrite (Fdiv_def FT), (Rmul_comm (F_R FT)); apply (Finv_l FT), Nz.
  - intros i Hi; rewrite (Hh v i Hv Hi); apply (div_nonneg F O inv FT le OT); [apply Nn, Hi|apply (sum_nonneg F O inv FT le OT); exact Nn|exact Nz].
  - intros Rs ys us Hs i Hi.
    assert (Pi : forall i, i < rk g -> parts i = covariance (Rs i) (ys i 0 v) (ys i 0 v)).
    { intros j Hj; destruct (Hs j Hj) as (L1 & _ & L3 & L4).
      exact (variance_is F O inv FT g m s (only F O L j) (X j) (Rs j) (ys j) (us j) HR Sb L1 L3 L4 (HX j Hj) 0 v Hv). }
    assert (Ab : forall j, j < rk g -> abs (parts j) = parts j) by (intros j Hj; apply A1; rewrite (Pi j Hj); apply (Hs j Hj)).
    rewrite (Hh v i Hv Hi), <- Tot; fold (parts i); rewrite (Ab i Hi), (Pi i Hi); f_equal; apply rsum_ext; intros j Hj; exact (Ab j Hj).
Qed.
Print Assumptions C46_partial.

(** Without correlation these are the shocks of the model, each alone. *)
Theorem C46_uncorrelated :
  forall (F : Type) (O : rops F) (inv : F -> F) (le : F -> F -> Prop) (lyap : nat -> mat F -> mat F -> res (mat F))
    (chol : nat -> mat F -> res (mat F)) (abs : F -> F) (g : rule F) (m : smodel F) (s : lsol F) (a : nd F),
  is_field O inv -> is_ordered O le -> solves_lyapunov F O lyap -> factors F O chol ->
  (forall x, le (r0 O) x -> abs x = x) -> (forall x, le x (r0 O) -> abs x = ropp O x) ->
  has_rule F g m s -> 1 < rn g -> stable F O g ->
  (forall i j, i < rk g -> j < rk g -> i <> j -> m_sigma m i j = r0 O) -> (forall i, i < rk g -> le (r0 O) (m_sigma m i i)) ->
  shares F O lyap chol abs (Ok tt) m s = Ok a ->
  exists h, a = M2 (rn g) (rk g) h /\
    forall (R : randoms F) y u, lawful F O R -> follows F O R g (nudged F O (m_sigma m)) y u -> stationary F R g y ->
    forall (Rs : nat -> randoms F) ys us,
    (forall i, i < rk g -> lawful F O (Rs i) /\ MomentsSpec.positive F O le (Rs i) /\
       follows F O (Rs i) g (alone F O (m_sigma m) i) (ys i) (us i) /\ stationary F (Rs i) g (ys i)) ->
    forall v i, v < rn g -> i < rk g -> covariance R (y 0 v) (y 0 v) <> r0 O ->
    h v i = rdiv O (covariance (Rs i) (ys i 0 v) (ys i 0 v)) (covariance R (y 0 v) (y 0 v)).
Proof.
  intros F O inv le lyap chol abs g m s a FT OT HL HC A1 A2 HR Hn Sb Off Dg E.
  destruct (C46_partial F O inv le lyap chol abs g m s a FT OT HL HC A1 A2 HR Hn Sb E) as (L & h & -> & HP & Up & H).
  exists h; split; [reflexivity|]; intros R y u LR Fo St Rs ys us Hs v i Hv Hi Nv.
  destruct (H R y u LR Fo St v Hv Nv) as (_ & _ & H3); apply (H3 Rs ys us); [|exact Hi].
  intros j Hj; destruct (Hs j Hj) as (S1 & S2 & S3 & S4); split; [exact S1|]; split; [exact S2|]; split; [|exact S4].
  apply (follows_ext F O g (alone F O (m_sigma m) j)); [|exact S3]; intros x z Hx Hz; unfold by_column.
  assert (Dn : forall i, i < rk g -> perturbed F O m i i <> r0 O).
  { intros q Hq; rewrite (perturbed_nudged F O inv FT); unfold nudged; rewrite Nat.eqb_refl; intros Z.
    destruct (tiny_pos F O inv FT le OT) as (T1 & T2); apply T2; exact (proj2 (add_zero F O inv FT le OT _ _ (Dg q Hq) T1 Z)). }
  assert (On : forall i j, i < rk g -> j < rk g -> i <> j -> perturbed F O m i j = r0 O).
  { intros p q Hp Hq N; rewrite (perturbed_nudged F O inv FT); unfold nudged; destruct (Nat.eqb_spec p q); [contradiction|apply Off; assumption]. }
  assert (HP' : forall i j, i < rk g -> j < rk g -> perturbed F O m i j = rsum F O (rk g) (fun c => rmul O (L i c) (L j c))).
  { intros p q Hp Hq; rewrite (perturbed_nudged F O inv FT); apply HP; assumption. }
  symmetry; etransitivity; [exact (only_diagonal F O inv FT g m L j HP' Up On Dn Hj x z Hx Hz)|].
  unfold alone; rewrite (perturbed_nudged F O inv FT); unfold nudged; rewrite Nat.eqb_refl; reflexivity.
Qed.
Print Assumptions C46_uncorrelated.

(** Two shocks, the second with no variance at all. *)
Definition two_var (l : nat) : Qc := if l =? 0 then Qcminus (r 4 1) (tiny Qc QO) else r 0 1.
Definition two_rule : rule Qc := one_state 2 (r 1 2) (r 1 1) (fun _ => r 1 1) (fun l => if l =? 0 then r 1 1 else r 2 1).
Definition two_model : smodel Qc := SModel [r 1 1; r 2 1] [1; 0] [0] ["e"%string; "f"%string] (diagonal two_var).
Definition two_sol : lsol Qc := First (gy_of two_rule) (gu_of two_rule).
Definition two_root (x : Qc) : Qc := if same x (r 4 1) then r 2 1 else if same x (tiny Qc QO) then r 1 1000000 else r 0 1.
Definition Qcabs (x : Qc) : Qc := if Qclt_le_dec x (Q2Qc 0) then Qcopp x else x.
Lemma Qcabs_spec : (forall x, Qcle (Q2Qc 0) x -> Qcabs x = x) /\ (forall x, Qcle x (Q2Qc 0) -> Qcabs x = Qcopp x).
Proof.
  unfold Qcabs; split; intros x H; destruct (Qclt_le_dec x (Q2Qc 0)) as [L|L]; try reflexivity.
  - exfalso; exact (Qclt_not_le _ _ L H).
  - rewrite (Qcle_antisym _ _ H L); apply same_eq; vm_compute; reflexivity.
Qed.
Lemma two_has_rule : has_rule Qc two_rule two_model two_sol.
Proof. split; [apply one_state_proper; lia|]; repeat split. Qed.
Lemma two_stable : stable Qc QO two_rule.
Proof. apply one_state_stable; apply same_neq; vm_compute; reflexivity. Qed.

Definition given (x : res (nd Qc)) : bool :=
  match x with Ok (M2 _ _ h) => negb (same (h 0 1) (r0 QO)) && negb (same (h 1 1) (r0 QO)) | _ => false end.
(** The perturbation is visible: a shock that never happens is given a share. *)
Theorem C46_refuted :
  exists (g : rule Qc) (m : smodel Qc) (s : lsol Qc) (chol : nat -> mat Qc -> res (mat Qc)) h,
  has_rule Qc g m s /\ stable Qc QO g /\ factors Qc QO chol /\ rn g = 2 /\ rk g = 2 /\
  (forall j, j < 2 -> m_sigma m 1 j = r0 QO /\ m_sigma m j 1 = r0 QO) /\
  shares Qc QO lyapD chol Qcabs (Ok tt) m s = Ok (M2 2 2 h) /\ forall v, v < 2 -> h v 1 <> r0 QO.
Proof.
  destruct (shares Qc QO lyapD (cholD two_root) Qcabs (Ok tt) two_model two_sol) as [a|e] eqn:E.
  2: { exfalso; apply (f_equal (fun x => match x with Ok _ => true | Err _ => false end)) in E; vm_compute in E; discriminate E. }
  destruct (C46_partial Qc QO Qcinv Qcle lyapD (cholD two_root) Qcabs two_rule two_model two_sol a Q_field Q_ordered lyapD_solves (cholD_factors two_root)
    (proj1 Qcabs_spec) (proj2 Qcabs_spec) two_has_rule (le_n 2) two_stable E) as (L & h & -> & _).
  exists two_rule, two_model, two_sol, (cholD two_root), h; split; [exact two_has_rule|]; split; [exact two_stable|]; split; [exact (cholD_factors two_root)|].
  split; [reflexivity|]; split; [reflexivity|]; split.
  { intros [|[|j]] Hj; [split; reflexivity|split; reflexivity|lia]. }
  split; [exact E|].
  assert (K : given (shares Qc QO lyapD (cholD two_root) Qcabs (Ok tt) two_model two_sol) = true) by (vm_compute; reflexivity); rewrite E in K; cbn [given] in K.
  apply andb_true_iff in K; destruct K as (K0 & K1); apply negb_true_iff in K0, K1.
  intros [|[|v]] Hv; [exact (same_neq _ _ K0)|exact (same_neq _ _ K1)|lia].
Qed.
Print Assumptions C46_refuted.

(** With one shock the shares are all one, whatever the solution is. *)
Theorem C46_single :
  forall (F : Type) (O : rops F) (lyap : nat -> mat F -> mat F -> res (mat F)) (chol : nat -> mat F -> res (mat F)) (abs : F -> F)
    (v : res unit) (m : smodel F) (s : lsol F) (names endog stoch : list string),
  List.length (m_shocks m) = 1 -> List.length names = List.length (m_ss m) -> NoDup names ->
  (endog = [] -> var_decomp F O lyap chol abs v m s names endog stoch = Ok (Some (M2 (List.length names) 1 (fun _ _ => r1 O)))) /\
  (endog <> [] -> (forall x, In x endog -> In x names) ->
     var_decomp F O lyap chol abs v m s names endog stoch = Ok (Some (M2 (List.length endog) 1 (fun _ _ => r1 O)))) /\
  (forall x, In x endog -> ~ In x names -> var_decomp F O lyap chol abs v m s names endog stoch = Err ValueErr).
Proof.
  intros F O lyap chol abs v m s names endog stoch L1 Ln ND; unfold var_decomp; rewrite L1; cbn [Nat.eqb]; split; [intros ->; rewrite Ln; reflexivity|]; split.
  - intros Ne H; destruct (locate_all names endog ND H) as (idx & Ei & Li & Bi & _); destruct endog as [|x endog]; [contradiction|]; rewrite Ei; cbn [bind take].
    rewrite (proj2 (forallb_forall _ _)); [rewrite Li; reflexivity|]; intros i Hi; apply Nat.ltb_lt; rewrite <- Ln; apply Bi, Hi.
  - intros x Hi Hx; rewrite (locate_some_unknown names endog x Hi Hx); destruct endog; [contradiction|]; reflexivity.
Qed.
Print Assumptions C46_single.

(** With several shocks, names select rows and columns of the shares. *)
Theorem C46_selection :
  forall (F : Type) (O : rops F) (lyap : nat -> mat F -> mat F -> res (mat F)) (chol : nat -> mat F -> res (mat F)) (abs : F -> F)
    (v : res unit) (m : smodel F) (s : lsol F) (names endog stoch : list string) h,
  List.length (m_shocks m) <> 1 -> NoDup names -> NoDup (m_shocks m) ->
  shares F O lyap chol abs v m s = Ok (M2 (List.length names) (List.length (m_shocks m)) h) ->
  ((forall x, In x endog -> In x names) -> (forall x, In x stoch -> In x (m_shocks m)) ->
   exists h', var_decomp F O lyap chol abs v m s names endog stoch =
       Ok (Some (M2 (List.length (if endog then names else endog)) (List.length (if stoch then m_shocks m else stoch)) h')) /\
     forall i j x z p q, nth_error (if endog then names else endog) i = Some x -> nth_error (if stoch then m_shocks m else stoch) j = Some z ->
       nth_error names p = Some x -> nth_error (m_shocks m) q = Some z -> h' i j = h p q) /\
  (forall x, In x endog -> ~ In x names -> var_decomp F O lyap chol abs v m s names endog stoch = Err ValueErr) /\
  (forall x, In x stoch -> ~ In x (m_shocks m) -> var_decomp F O lyap chol abs v m s names endog stoch = Err ValueErr).
Proof.
  intros F O lyap chol abs v m s names endog stoch h L1 ND1 ND2 Es; unfold var_decomp; destruct (Nat.eqb_spec (List.length (m_shocks m)) 1) as [|_]; [contradiction|].
  rewrite Es; cbn [bind]; assert (U : forall (l : list string) i j x, NoDup l -> nth_error l i = Some x -> nth_error l j = Some x -> i = j).
  { intros l i j x ND Hi Hj; apply (proj1 (NoDup_nth_error l) ND); [apply nth_error_Some; congruence|congruence]. }
  split; [|split].
  - intros H1 H2; destruct (locate_all names endog ND1 H1) as (ei & -> & Le & Be & Pe); destruct (locate_all (m_shocks m) stoch ND2 H2) as (si & -> & Ls & Bs & Ps); cbn [bind].
    assert (Ie : forallb (fun i => i <? List.length names) ei = true) by (apply forallb_forall; intros i Hi; apply Nat.ltb_lt, Be, Hi).
    assert (Is : forallb (fun i => i <? List.length (m_shocks m)) si = true) by (apply forallb_forall; intros i Hi; apply Nat.ltb_lt, Bs, Hi).
    destruct endog as [|e0 endog], stoch as [|s0 stoch]; cbn in Le, Ls.
    + exists h; split; [reflexivity|]; intros i j x z p q Hi Hj Hp Hq; rewrite (U _ _ _ _ ND1 Hi Hp), (U _ _ _ _ ND2 Hj Hq); reflexivity.
    + destruct ei; [|discriminate]; destruct si as [|s1 si]; [discriminate|]; cbn [take_cols]; rewrite Is; cbn [bind]; rewrite Ls.
      eexists; split; [reflexivity|]; intros i j x z p q Hi Hj Hp Hq; cbn beta; rewrite (U _ _ _ _ ND1 Hi Hp), (Ps j z q Hj Hq); reflexivity.
    + destruct si; [|discriminate]; destruct ei as [|e1 ei]; [discriminate|]; cbn [take]; rewrite Ie; cbn [bind]; rewrite Le.
      eexists; split; [reflexivity|]; intros i j x z p q Hi Hj Hp Hq; cbn beta; rewrite (U _ _ _ _ ND2 Hj Hq), (Pe i x p Hi Hp); reflexivity.
    + destruct si as [|s1 si]; [discriminate|]; destruct ei as [|e1 ei]; [discriminate|]; cbn [take]; rewrite Ie; cbn [bind take_cols]; rewrite Is; cbn [bind]; rewrite Le, Ls.
      eexists; split; [reflexivity|]; intros i j x z p q Hi Hj Hp Hq; cbn beta; rewrite (Ps j z q Hj Hq), (Pe i x p Hi Hp); reflexivity.
  - intros x Hx N; rewrite (locate_some_unknown names endog x Hx N); reflexivity.
  - intros x Hx N; rewrite (locate_some_unknown (m_shocks m) stoch x Hx N).
    destruct (mapM (locate names) endog) as [|e] eqn:Ee; [reflexivity|]; cbn [bind]; f_equal.
    clear -Ee; revert Ee; induction endog as [|y endog IH]; cbn [mapM]; [discriminate|].
    unfold locate at 1; destruct (where_ y names 0) as [|i [|]]; cbn [bind]; try (intros H; injection H as <-; reflexivity).
    destruct (mapM (locate names) endog); cbn [bind]; [discriminate|]; intros H; apply IH; injection H as <-; reflexivity.
Qed.
Print Assumptions C46_selection.

(** The processes of the two shocks together and each alone. *)
Definition two_total (l : nat) : Qc := if l =? 0 then r 4 1 else tiny Qc QO.
Definition two_alone (i l : nat) : Qc := if l =? i then two_total i else r 0 1.
Definition two_V (s : nat -> Qc) (_ : nat) : Qc := Qcmult (r 4 3) (Qcplus (s 0) (s 1)).
Definition two_R (s : nat -> Qc) := R two_rule s (two_V s).
Definition two_y (s : nat -> Qc) := later (run two_rule s (two_V s)).
Definition two_u (s : nat -> Qc) := later (eps two_rule s (two_V s)).
Lemma two_process (s : nat -> Qc) : Qcle (r 0 1) (two_V s 0) -> (forall l, Qcle (r 0 1) (s l)) ->
  same (next_var two_rule s (two_V s) 0 0) (two_V s 0) = true ->
  lawful Qc QO (two_R s) /\ MomentsSpec.positive Qc QO Qcle (two_R s) /\
  follows Qc QO (two_R s) two_rule (diagonal s) (two_y s) (two_u s) /\ stationary Qc (two_R s) two_rule (two_y s).
Proof.
  intros H1 H2 H3; split; [apply space_lawful|]; split; [apply R_positive; [intros j _; exact H1|assumption]|].
  split; [apply later_follows; apply two_has_rule|apply later_stationary; [apply two_has_rule|]].
  intros i j Hi Hj; cbn in Hi, Hj; replace i with 0 by lia; replace j with 0 by lia; exact (same_eq _ _ H3).
Qed.

Example C46_nonvacuous :
  has_rule Qc two_rule two_model two_sol /\ stable Qc QO two_rule /\ factors Qc QO (cholD two_root) /\
  (exists a, shares Qc QO lyapD (cholD two_root) Qcabs (Ok tt) two_model two_sol = Ok a) /\
  (follows Qc QO (two_R two_total) two_rule (nudged Qc QO (m_sigma two_model)) (two_y two_total) (two_u two_total) /\
   stationary Qc (two_R two_total) two_rule (two_y two_total) /\
   covariance (two_R two_total) (two_y two_total 0 0) (two_y two_total 0 0) <> r0 QO) /\
  (forall i, i < 2 -> lawful Qc QO (two_R (two_alone i)) /\ MomentsSpec.positive Qc QO Qcle (two_R (two_alone i)) /\
     follows Qc QO (two_R (two_alone i)) two_rule (alone Qc QO (m_sigma two_model) i) (two_y (two_alone i)) (two_u (two_alone i)) /\
     stationary Qc (two_R (two_alone i)) two_rule (two_y (two_alone i))).
Proof.
  split; [exact two_has_rule|]; split; [exact two_stable|]; split; [exact (cholD_factors two_root)|].
  assert (Hl : forall l, Qcle (r 0 1) (two_total l)) by (intros l; unfold two_total; destruct (l =? 0); intros H; vm_compute in H; discriminate H).
  assert (Ha : forall i l, Qcle (r 0 1) (two_alone i l)) by (intros i l; unfold two_alone; destruct (l =? i); [apply Hl|apply Qcle_refl]).
  split; [|split].
  - destruct (shares Qc QO lyapD (cholD two_root) Qcabs (Ok tt) two_model two_sol) as [a|e] eqn:E; [exists a; reflexivity|].
    exfalso; apply (f_equal (fun x => match x with Ok _ => true | Err _ => false end)) in E; vm_compute in E; discriminate E.
  - destruct (two_process two_total) as (_ & _ & P3 & P4); [intros H; vm_compute in H; discriminate H|exact Hl|vm_compute; reflexivity|].
    split; [|split; [exact P4|apply same_neq; vm_compute; reflexivity]].
    apply (follows_ext Qc QO two_rule (diagonal two_total)); [|exact P3].
    intros [|[|a]] [|[|b]] Hx Hy; try (cbn in Hx, Hy; lia); try reflexivity; apply same_eq; vm_compute; reflexivity.
  - intros i Hi; assert (HV : Qcle (r 0 1) (two_V (two_alone i) 0)) by (destruct i as [|[|i]]; [intros H; vm_compute in H; discriminate H..|lia]).
    assert (HS : same (next_var two_rule (two_alone i) (two_V (two_alone i)) 0 0) (two_V (two_alone i) 0) = true) by (destruct i as [|[|i]]; [vm_compute; reflexivity..|lia]).
    destruct (two_process (two_alone i) HV (Ha i) HS) as (P1 & P2 & P3 & P4); split; [exact P1|]; split; [exact P2|]; split; [|exact P4].
    apply (follows_ext Qc QO two_rule (diagonal (two_alone i))); [|exact P3].
    intros [|[|a]] [|[|b]] Hx Hy; try (cbn in Hx, Hy; lia); destruct i as [|[|i]]; try lia; try reflexivity; apply same_eq; vm_compute; reflexivity.
Qed.

Example C46_names :
  shown (option_map table_of) (var_decomp Qc QO lyapD (cholD two_root) Qcabs (Ok tt) ar_model ar_sol ["z"; "x"] ["x"] ["nobody"])%string = Ok (Some [[Qmake 1 1]]) /\
  shown (option_map table_of) (var_decomp Qc QO lyapD (cholD two_root) Qcabs (Ok tt) two_model two_sol ["z"; "x"] [] ["nobody"])%string = Err ValueErr /\
  shown (option_map (fun a => match a with M2 n k h => (n, k, same (Qcplus (h 0 0) (h 0 1)) (r 1 1)) | _ => (0, 0, false) end))
    (var_decomp Qc QO lyapD (cholD two_root) Qcabs (Ok tt) two_model two_sol ["z"; "x"] ["x"] ["f"; "e"])%string = Ok (Some (1, 2, true)).
Proof. split; [|split]; vm_compute; reflexivity. Qed.

(** ** C70: means at second order *)

(** The mean that is reported deviates from the steady state by half of what the second-order
    rule implies, whatever the numbers of variables, states and shocks: [squeeze] is what the
    code does to arrays with axes of length one, so that those of a model with one state or one
    shock are vectors.  (A model with one variable has no mean at second order: IndexError.) *)
Theorem C70_partial :
  forall (F : Type) (O : rops F) (inv : F -> F) (lyap : nat -> mat F -> mat F -> res (mat F)) (lsolve : nat -> mat F -> vec F -> res (vec F))
    (g : rule F) (m : smodel F) (d : derivatives F) (X U : nat -> nat -> nat -> F) (C : nat -> F) (fX fU : mat F) (a : nd F),
  is_field O inv -> twice_one O <> r0 O -> solves_lyapunov F O lyap -> solves_linear F O lsolve ->
  proper g -> describes g m -> stable F O g -> no_unit_root F O g ->
  gxx d = squeeze F (M2 (rn g) (rs g * rs g) fX) -> guu d = squeeze F (M2 (rn g) (rk g * rk g) fU) -> gss d = V1 (rn g) C ->
  (forall i a b, i < rn g -> a < rs g -> b < rs g -> fX i (a * rs g + b) = X i a b) ->
  (forall i a b, i < rn g -> a < rk g -> b < rk g -> fU i (a * rk g + b) = U i a b) ->
  mean F O lyap lsolve (Ok tt) m (second_solution F O (gy_of g) (gu_of g) d) = Ok a ->
  exists h, a = V1 (rn g) h /\
    forall (R : randoms F) y u, lawful F O R -> follows F O R g (m_sigma m) y u -> stationary F R g y ->
    forall e, second_order_mean F O (rdiv O (r1 O) (twice_one O)) g X U C (m_sigma m)
        (fun i j => covariance R (y 0 (state_at g i)) (y 0 (state_at g j))) e ->
    forall v, v < rn g -> h v = radd O (nth v (m_ss m) (r0 O)) (rmul O (rdiv O (r1 O) (twice_one O)) (e v)).
Proof.
  intros F O inv lyap lsolve g m d X U C fX fU a FT N2 HL HS W Ds Sb NU EX EU EC HX HU E.
  assert (Hn : 1 < rn g).
  { destruct (Nat.eq_dec (rn g) 1) as [N1|]; [exfalso|pose proof (proj1 (proj2 (proj2 (proj2 (proj2 W))))); lia].
    destruct W as (_ & L & N & B & _ & P & _).
    assert (S1 : rs g = 1).
    { assert (List.length (rstate g) <= List.length (seq 0 (rn g))) by (apply NoDup_incl_length; [exact N|]; intros i Hi; apply in_seq; specialize (B i Hi); lia).
      rewrite seq_length in *; lia. }
    unfold mean, second_solution, state_sigma in E; cbn [bind] in E; unfold kalman_transition in E; cbn [bind] in E.
    unfold gy_of, squeeze in E; rewrite N1, S1 in E; cbn in E; discriminate. }
  destruct (mean_ok F O inv FT N2 lyap HL lsolve HS g m d W Ds Hn X U C fX fU EX EU EC HX HU a NU E) as (V & h & -> & HV & H).
  exists h; split; [reflexivity|]; intros R y u LR Fo St e He v Hv; apply H; [|exact Hv].
  intros i Hi; rewrite (He i Hi); f_equal; f_equal; f_equal; f_equal.
    apply rsum_ext; intros p Hp; apply rsum_ext; intros q Hq; f_equal; symmetry.
    apply (lyapunov_unique F O (F_R FT) g Sb (mmul F O (rk g) (B F g) (mmul F O (rk g) (m_sigma m) (mtr F (B F g)))) (mmul F O (rk g) (B F g) (mmul F O (rk g) (m_sigma m) (mtr F (B F g)))) V (D F R g y 0)); [exact HV| |reflexivity|exact Hp|exact Hq].
    intros i' j' Hi' Hj'; transitivity (D F R g y 1 i' j').
  - unfold D; symmetry; apply St; apply (state_lt F g W); assumption.
  - apply (D_next F O (F_R FT) R LR g W _ y u Fo); assumption.
Qed.
Print Assumptions C70_partial.

(** At first order the mean is the steady state. *)
Theorem C70_first :
  forall (F : Type) (O : rops F) (lyap : nat -> mat F -> mat F -> res (mat F)) (lsolve : nat -> mat F -> vec F -> res (vec F)) v (m : smodel F) gy gu,
  exists h, mean F O lyap lsolve v m (First gy gu) = Ok (V1 (List.length (m_ss m)) h) /\ forall i, i < List.length (m_ss m) -> h i = nth i (m_ss m) (r0 O).
Proof. intros; eexists; split; [reflexivity|]; intros i Hi; reflexivity. Qed.
Print Assumptions C70_first.

(** Example: two states, two shocks, x' = x/2 + e + (x^2 + e^2 + 1)/2, z' = z/4 + f. *)
Definition so_rule : rule Qc :=
  Rule 2 2 2 (fun i j => if i =? j then (if i =? 0 then r 1 2 else r 1 4) else r 0 1) (fun i j => if i =? j then r 1 1 else r 0 1) [0; 1] [0; 1].
Definition so_model : smodel Qc := SModel [r 7 1; r 2 1] [0; 1] [0; 1] ["e"%string; "f"%string] (diagonal (fun _ => r 1 1)).
Definition so_X (i a b : nat) : Qc := if (i =? 0) && (a =? 0) && (b =? 0) then r 1 1 else r 0 1.
Definition so_C (i : nat) : Qc := if i =? 0 then r 1 1 else r 0 1.
Definition so_flat : mat Qc := fun i j => if (i =? 0) && (j =? 0) then r 1 1 else r 0 1.
Definition so_d : derivatives Qc := Derivatives (M2 2 4 so_flat) (M2 2 4 (fun _ _ => r 0 1)) (M2 2 4 so_flat) (V1 2 so_C).
Definition so_V (j : nat) : Qc := if j =? 0 then r 4 3 else r 16 15.
Definition so_mean (v : nat) : Qc := if v =? 0 then r 10 3 else r 0 1.
Lemma so_proper : proper so_rule.
Proof.
  unfold proper, so_rule; cbn; split; [apply Permutation_refl|]; split; [reflexivity|]; split.
  - repeat constructor; cbn; intuition discriminate.
  - split; [intros s [<-|[<-|[]]]; lia|]; lia.
Qed.
Definition so_R := R so_rule (fun _ => r 1 1) so_V.
Definition so_y := later (run so_rule (fun _ => r 1 1) so_V).
Definition so_u := later (eps so_rule (fun _ => r 1 1) so_V).
Lemma so_diagonal : forall i j, i < rs so_rule -> j < rs so_rule -> i <> j -> on_states Qc so_rule i j = Q2Qc 0.
Proof. intros [|[|i]] [|[|j]] Hi Hj N; cbn in Hi, Hj; try lia; reflexivity. Qed.
Lemma so_stable : stable Qc QO so_rule /\ no_unit_root Qc QO so_rule.
Proof.
  split; [apply diagonal_stable; [exact so_diagonal|]|apply diagonal_no_unit_root; [exact so_diagonal|]].
  - intros [|[|i]] [|[|j]] Hi Hj; cbn in Hi, Hj; try lia; apply same_neq; vm_compute; reflexivity.
  - intros [|[|i]] Hi; cbn in Hi; try lia; apply same_neq; vm_compute; reflexivity.
Qed.
Lemma so_process : lawful Qc QO so_R /\ follows Qc QO so_R so_rule (m_sigma so_model) so_y so_u /\ stationary Qc so_R so_rule so_y.
Proof.
  split; [apply space_lawful|]; split; [apply later_follows, so_proper|apply later_stationary; [exact so_proper|]].
  intros [|[|i]] [|[|j]] Hi Hj; cbn in Hi, Hj; try lia; apply same_eq; vm_compute; reflexivity.
Qed.
Lemma so_expected : second_order_mean Qc QO (r 1 2) so_rule so_X so_X so_C (m_sigma so_model)
  (fun i j => covariance so_R (so_y 0 (state_at so_rule i)) (so_y 0 (state_at so_rule j))) so_mean.
Proof. intros [|[|i]] Hi; cbn in Hi; try lia; apply same_eq; vm_compute; reflexivity. Qed.

Example C70_nonvacuous :
  proper so_rule /\ describes so_rule so_model /\ stable Qc QO so_rule /\ no_unit_root Qc QO so_rule /\
  (forall i a b, i < 2 -> a < 2 -> b < 2 -> so_flat i (a * 2 + b) = so_X i a b) /\
  (lawful Qc QO so_R /\ follows Qc QO so_R so_rule (m_sigma so_model) so_y so_u /\ stationary Qc so_R so_rule so_y) /\
  second_order_mean Qc QO (r 1 2) so_rule so_X so_X so_C (m_sigma so_model)
    (fun i j => covariance so_R (so_y 0 (state_at so_rule i)) (so_y 0 (state_at so_rule j))) so_mean /\
  shown table_of (mean Qc QO lyapD lsolveD (Ok tt) so_model (second_solution Qc QO (gy_of so_rule) (gu_of so_rule) so_d)) = Ok [[Qmake 26 3; Qmake 2 1]].
Proof.
  split; [exact so_proper|]; split; [repeat split|]; split; [apply so_stable|]; split; [apply so_stable|]; split.
  { intros [|[|i]] [|[|a]] [|[|b]] H1 H2 H3; try lia; reflexivity. }
  split; [exact so_process|]; split; [exact so_expected|]; vm_compute; reflexivity.
Qed.

(** One state and one shock, two variables: x' = x/2 + e + (x^2 + e^2 + 1)/2, y' = x/2 + e. *)
Definition s1_rule : rule Qc := Rule 2 1 1 (fun _ _ => r 1 2) (fun _ _ => r 1 1) [0; 1] [0].
Definition s1_model : smodel Qc := SModel [r 7 1; r 2 1] [0; 1] [0] ["e"%string] (diagonal (fun _ => r 1 1)).
Definition s1_d : derivatives Qc :=
  Derivatives (squeeze Qc (M2 2 1 so_flat)) (squeeze Qc (M2 2 1 (fun _ _ => r 0 1))) (squeeze Qc (M2 2 1 so_flat)) (V1 2 so_C).
Definition s1_mean (v : nat) : Qc := if v =? 0 then r 10 3 else r 5 3.
Definition s1_R := R s1_rule (fun _ => r 1 1) (fun _ => r 4 3).
Definition s1_y := later (run s1_rule (fun _ => r 1 1) (fun _ => r 4 3)).
Definition s1_u := later (eps s1_rule (fun _ => r 1 1) (fun _ => r 4 3)).
Lemma s1_proper : proper s1_rule.
Proof.
  unfold proper, s1_rule; cbn; split; [apply Permutation_refl|]; split; [reflexivity|]; split; [repeat constructor; cbn; intuition discriminate|].
  split; [intros s [<-|[]]; lia|]; lia.
Qed.
Lemma s1_diagonal : forall i j, i < rs s1_rule -> j < rs s1_rule -> i <> j -> on_states Qc s1_rule i j = Q2Qc 0.
Proof. intros [|i] [|j] Hi Hj N; cbn in Hi, Hj; lia. Qed.
Example C70_one_state :
  proper s1_rule /\ describes s1_rule s1_model /\ stable Qc QO s1_rule /\ no_unit_root Qc QO s1_rule /\
  (forall i a b, i < 2 -> a < 1 -> b < 1 -> so_flat i (a * 1 + b) = so_X i a b) /\
  (lawful Qc QO s1_R /\ follows Qc QO s1_R s1_rule (m_sigma s1_model) s1_y s1_u /\ stationary Qc s1_R s1_rule s1_y) /\
  second_order_mean Qc QO (r 1 2) s1_rule so_X so_X so_C (m_sigma s1_model)
    (fun i j => covariance s1_R (s1_y 0 (state_at s1_rule i)) (s1_y 0 (state_at s1_rule j))) s1_mean /\
  shown table_of (mean Qc QO lyapD lsolveD (Ok tt) s1_model (second_solution Qc QO (gy_of s1_rule) (gu_of s1_rule) s1_d)) = Ok [[Qmake 26 3; Qmake 17 6]].
Proof.
  split; [exact s1_proper|]; split; [repeat split|]; split; [apply diagonal_stable; [exact s1_diagonal|]|split; [apply diagonal_no_unit_root; [exact s1_diagonal|]|split]].
  - intros [|i] [|j] Hi Hj; cbn in Hi, Hj; try lia; apply same_neq; vm_compute; reflexivity.
  - intros [|i] Hi; cbn in Hi; try lia; apply same_neq; vm_compute; reflexivity.
  - intros [|[|i]] [|a] [|b] H1 H2 H3; try lia; reflexivity.
  - split; [split; [apply space_lawful|]; split; [apply later_follows, s1_proper|apply later_stationary; [exact s1_proper|]]|split].
    + intros [|[|i]] [|[|j]] Hi Hj; cbn in Hi, Hj; try lia; apply same_eq; vm_compute; reflexivity.
    + intros [|[|i]] Hi; cbn in Hi; try lia; apply same_eq; vm_compute; reflexivity.
    + vm_compute; reflexivity.
Qed.

(** So it is not the mean of the second-order rule: 7 + 10/3 = 31/3 here, and 26/3 is reported. *)
Theorem C70_refuted :
  exists (g : rule Qc) (m : smodel Qc) (d : derivatives Qc) X U C e h (R : randoms Qc) y u,
  proper g /\ describes g m /\ lawful Qc QO R /\ follows Qc QO R g (m_sigma m) y u /\ stationary Qc R g y /\
  second_order_mean Qc QO (r 1 2) g X U C (m_sigma m) (fun i j => covariance R (y 0 (state_at g i)) (y 0 (state_at g j))) e /\
  second_derivatives Qc g X U (fun _ _ _ => r 0 1) C d /\
  mean Qc QO lyapD lsolveD (Ok tt) m (second_solution Qc QO (gy_of g) (gu_of g) d) = Ok (V1 2 h) /\
  h 0 <> Qcplus (nth 0 (m_ss m) (r 0 1)) (e 0).
Proof.
  destruct (mean Qc QO lyapD lsolveD (Ok tt) so_model (second_solution Qc QO (gy_of so_rule) (gu_of so_rule) so_d)) as [a|x] eqn:E.
  2: { exfalso; apply (f_equal (fun x => match x with Ok _ => true | Err _ => false end)) in E; vm_compute in E; discriminate E. }
  destruct (C70_partial Qc QO Qcinv lyapD lsolveD so_rule so_model so_d so_X so_X so_C so_flat so_flat a Q_field Q_two lyapD_solves lsolveD_solves so_proper
    ltac:(repeat split) (proj1 so_stable) (proj2 so_stable) eq_refl eq_refl eq_refl
    ltac:(intros [|[|i]] [|[|p]] [|[|q]] H1 H2 H3; cbn in H1, H2, H3; try lia; reflexivity)
    ltac:(intros [|[|i]] [|[|p]] [|[|q]] H1 H2 H3; cbn in H1, H2, H3; try lia; reflexivity) E) as (h & -> & H).
  destruct so_process as (P1 & P2 & P3).
  exists so_rule, so_model, so_d, so_X, so_X, so_C, so_mean, h, so_R, so_y, so_u; split; [exact so_proper|]; split; [repeat split|].
  split; [exact P1|]; split; [exact P2|]; split; [exact P3|]; split; [exact so_expected|]; split.
  { repeat split; eexists; (split; [reflexivity|]); [intros [|[|i]] [|[|p]] [|[|q]] H1 H2 H3..|intros [|[|i]] H1]; cbn in *; try lia; reflexivity. }
  split; [exact E|].
  rewrite (H so_R so_y so_u P1 P2 P3 so_mean so_expected 0 ltac:(cbn; lia)); apply same_neq; vm_compute; reflexivity.
Qed.
Print Assumptions C70_refuted.

(** ** C71: correlations *)

(** Off the diagonal they are between minus one and one, on the diagonal one, and symmetric,
    for variables that vary at all. *)
Theorem C71_partial :
  forall (F : Type) (O : rops F) (inv : F -> F) (le : F -> F -> Prop) (lyap : nat -> mat F -> mat F -> res (mat F)) (sqrt : F -> F)
    (g : rule F) (m : smodel F) (s : lsol F) (a : nd F),
  is_field O inv -> is_ordered O le -> solves_lyapunov F O lyap ->
  has_rule F g m s -> 1 < rn g -> stable F O g ->
  corr F O lyap sqrt (Ok tt) m s = Ok a ->
  exists h, a = M2 (rn g) (rn g) h /\
    forall (R : randoms F) y u, lawful F O R -> MomentsSpec.positive F O le R -> follows F O R g (m_sigma m) y u -> stationary F R g y ->
    forall t v w, v < rn g -> w < rn g -> covariance R (y t v) (y t v) <> r0 O -> covariance R (y t w) (y t w) <> r0 O ->
    (forall x, x = covariance R (y t v) (y t v) \/ x = covariance R (y t w) (y t w) -> rmul O (sqrt x) (sqrt x) = x) ->
    h v w = rdiv O (covariance R (y t v) (y t w)) (rmul O (sqrt (covariance R (y t v) (y t v))) (sqrt (covariance R (y t w) (y t w)))) /\
    le (ropp O (r1 O)) (h v w) /\ le (h v w) (r1 O) /\ h v v = r1 O /\ h v w = h w v.
Proof.
  intros F O inv le lyap sqrt g m s a FT OT HL HR Hn Sb E.
  destruct (cov F O lyap (Ok tt) m s) as [c|] eqn:Ec; [|unfold corr in E; rewrite Ec in E; discriminate].
  destruct (C44_partial F O lyap g m s c (F_R FT) HL HR Hn Sb Ec) as (C & EC & HC & _).
  destruct (corr_ok F O lyap sqrt (rn g) (Ok tt) m s c C Ec EC) as (h & Eh & Hh); rewrite E in Eh; injection Eh as ->.
  exists h; split; [reflexivity|]; intros R y u LR P Fo St t v w Hv Hw Nv Nw Sq.
  destruct (corr_bounds F O inv FT le OT sqrt R (y t v) (y t w) LR P ltac:(intros z [-> | ->]; apply Sq; [left|right]; reflexivity) Nv Nw) as (B1 & B2 & B3).
  rewrite !Hh, !(HC R y u LR Fo St t) by assumption; split; [reflexivity|]; split; [exact B1|]; split; [exact B2|]; split; [exact B3|].
  rewrite (cov_sym F O R LR (y t w) (y t v)); f_equal; apply (Rmul_comm (F_R FT)).
Qed.
Print Assumptions C71_partial.

(** A variable that does not vary has no correlation of one with itself: zero over zero. *)
Theorem C71_refuted :
  forall (F : Type) (O : rops F) (inv : F -> F) (lyap : nat -> mat F -> mat F -> res (mat F)) (sqrt : F -> F)
    (g : rule F) (m : smodel F) (s : lsol F) (a : nd F),
  is_field O inv -> solves_lyapunov F O lyap -> has_rule F g m s -> 1 < rn g -> stable F O g ->
  corr F O lyap sqrt (Ok tt) m s = Ok a ->
  exists h, a = M2 (rn g) (rn g) h /\
    forall (R : randoms F) y u, lawful F O R -> follows F O R g (m_sigma m) y u -> stationary F R g y ->
    forall t v, v < rn g -> covariance R (y t v) (y t v) = r0 O -> h v v = rdiv O (r0 O) (rmul O (sqrt (r0 O)) (sqrt (r0 O))).
Proof.
  intros F O inv lyap sqrt g m s a FT HL HR Hn Sb E.
  destruct (cov F O lyap (Ok tt) m s) as [c|] eqn:Ec; [|unfold corr in E; rewrite Ec in E; discriminate].
  destruct (C44_partial F O lyap g m s c (F_R FT) HL HR Hn Sb Ec) as (C & EC & HC & _).
  destruct (corr_ok F O lyap sqrt (rn g) (Ok tt) m s c C Ec EC) as (h & Eh & Hh); rewrite E in Eh; injection Eh as ->.
  exists h; split; [reflexivity|]; intros R y u LR Fo St t v Hv Z; rewrite Hh, !(HC R y u LR Fo St t), Z by assumption; reflexivity.
Qed.
Print Assumptions C71_refuted.

(** Example: x' = 3/5 x + e and z' = 4/5 x, with variances 25/16 and 1.  The root
    is right for these two. *)
Definition co_rule : rule Qc := one_state 1 (r 3 5) (r 4 5) (fun _ => r 1 1) (fun _ => r 0 1).
Definition co_model : smodel Qc := SModel [r 1 1; r 2 1] [1; 0] [0] ["e"%string] (diagonal (fun _ => r 1 1)).
Definition co_sol : lsol Qc := First (gy_of co_rule) (gu_of co_rule).
Definition co_sqrt (x : Qc) : Qc := if same x (r 25 16) then r 5 4 else r 1 1.
Lemma co_has_rule : has_rule Qc co_rule co_model co_sol.
Proof. split; [apply one_state_proper; lia|]; repeat split. Qed.
Lemma co_stable : stable Qc QO co_rule.
Proof. apply one_state_stable; apply same_neq; vm_compute; reflexivity. Qed.
Definition co_R := R co_rule (fun _ => r 1 1) (fun _ => r 25 16).
Definition co_y := later (run co_rule (fun _ => r 1 1) (fun _ => r 25 16)).
Definition co_u := later (eps co_rule (fun _ => r 1 1) (fun _ => r 25 16)).
Example C71_nonvacuous :
  has_rule Qc co_rule co_model co_sol /\ stable Qc QO co_rule /\
  (lawful Qc QO co_R /\ MomentsSpec.positive Qc QO Qcle co_R /\
   follows Qc QO co_R co_rule (m_sigma co_model) co_y co_u /\ stationary Qc co_R co_rule co_y) /\
  (forall v, v < 2 -> let x := covariance co_R (co_y 0 v) (co_y 0 v) in x <> r0 QO /\ rmul QO (co_sqrt x) (co_sqrt x) = x) /\
  shown table_of (corr Qc QO lyapD co_sqrt (Ok tt) co_model co_sol) = Ok [[Qmake 1 1; Qmake 3 5]; [Qmake 3 5; Qmake 1 1]].
Proof.
  split; [exact co_has_rule|]; split; [exact co_stable|]; split.
  { split; [apply space_lawful|]; split; [apply R_positive; [intros _ _|intros _]; intros H; discriminate H|].
    split; [apply later_follows; apply co_has_rule|apply later_stationary; [apply co_has_rule|]].
    intros i j Hi Hj; cbn in Hi, Hj; replace i with 0 by lia; replace j with 0 by lia; apply same_eq; vm_compute; reflexivity. }
  split; [|vm_compute; reflexivity].
  intros [|[|v]] Hv; try lia; (split; [apply same_neq|apply same_eq]; vm_compute; reflexivity).
Qed.
