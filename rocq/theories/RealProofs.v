(** The real numbers satisfy what is asked of numbers in CalcSpec.v, and derivatives there are
    the derivatives of the standard library. *)
From Verif Require Import Base Syntax Nd SimSpec Eval EvalSpec CalcSpec CalcProofs3 RealSpec.
From Coq Require Import ZArith Reals Lra.
Local Open Scope R_scope.

Lemma R_field : is_field RO Rinv.
Proof. exact Rfield. Qed.
Lemma R_ordered : is_ordered RO Rle.
Proof.
  constructor; cbn.
  - intros; lra.
  - intros; lra.
  - intros x y; destruct (Rle_dec x y); [left; assumption|right; lra].
  - intros; lra.
  - intros; apply Rmult_le_pos; assumption.
Qed.

Notation near := (near R RO Rle).
Notation vanishes := (vanishes R RO Rle).
Notation within := (within R RO Rle).
Notation positive := (positive R RO Rle).
Notation jet1 := (jet1 R RO Rle).
Notation jet2 := (jet2 R RO Rle).

(** ** Neighbourhoods and limits *)
Lemma near_around P : near P <-> around P.
Proof.
  split.
  - intros (d & [H1 H2] & H); cbn in *; exists (mkposreal d ltac:(lra)); intros h Hh; apply H; apply Rabs_def2 in Hh; cbn in *; split; cbn; lra.
  - intros (d & H); pose proof (cond_pos d); exists (d / 2); split; [split; cbn; lra|]; intros t [H1 H2]; cbn in *; apply H; apply Rabs_def1; lra.
Qed.
Lemma around_zero P : around P -> P 0.
Proof. intros (d & H); apply H; rewrite Rabs_R0; apply cond_pos. Qed.
Lemma around_mono (P Q : R -> Prop) : (forall h, P h -> Q h) -> around P -> around Q.
Proof. intros H (d & Hd); exists d; auto. Qed.
Lemma around_and P Q : around P -> around Q -> around (fun h => P h /\ Q h).
Proof.
  intros (d & Hd) (e & He); pose proof (cond_pos d); pose proof (cond_pos e).
  exists (mkposreal (Rmin d e) ltac:(apply Rmin_pos; assumption)); cbn; intros h Hh; split; [apply Hd|apply He]; (eapply Rlt_le_trans; [exact Hh|]); [apply Rmin_l|apply Rmin_r].
Qed.
Lemma vanishes_iff s : vanishes s <-> forall e, 0 < e -> around (fun t => Rabs (s t) <= e).
Proof.
  split.
  - intros H e He; apply near_around; destruct (H e) as (d & Hd & H'); [split; cbn; lra|]; exists d; split; [exact Hd|]; intros t Ht; destruct (H' t Ht); cbn in *; apply Rabs_le; lra.
  - intros H e [He1 He2]; cbn in *; apply near_around; specialize (H e ltac:(lra)); revert H; apply around_mono; intros t Ht.
    split; cbn; unfold Rabs in Ht; destruct (Rcase_abs (s t)); lra.
Qed.

(** ** Derivatives at zero *)
Definition slope (f : R -> R) (l : R) (t : R) : R := if Req_EM_T t 0 then 0 else (f t - f 0) / t - l.
Lemma slope_eq f l t : f t = f 0 + l * t + slope f l t * t.
Proof. unfold slope; destruct (Req_EM_T t 0) as [->|H]; [lra|field; exact H]. Qed.
Lemma slope_vanishes f l : derivable_pt_lim f 0 l -> vanishes (slope f l).
Proof.
  intros H; apply vanishes_iff; intros e He; destruct (H e He) as (d & Hd); exists d; intros t Ht; unfold slope; destruct (Req_EM_T t 0) as [->|N]; [rewrite Rabs_R0; lra|].
  specialize (Hd t N Ht); rewrite Rplus_0_l in Hd; lra.
Qed.
Lemma jet1_derivable f a b : jet1 f a b -> f 0 = a /\ derivable_pt_lim f 0 b.
Proof.
  intros (s & Vs & N); apply near_around in N; cbn in N; assert (E0 : f 0 = a) by (rewrite (around_zero _ N); lra); split; [exact E0|].
  rewrite vanishes_iff in Vs; intros e He; destruct (around_and _ _ N (Vs (e / 2) ltac:(lra))) as (d & Hd); exists d; intros h Nh Hh.
  rewrite Rplus_0_l; destruct (Hd h Hh) as [E B]; rewrite E, E0; replace ((a + b * h + s h * h - a) / h - b) with (s h) by (field; exact Nh); lra.
Qed.
Lemma derivable_jet1 f b : derivable_pt_lim f 0 b -> jet1 f (f 0) b.
Proof. intros H; exists (slope f b); split; [apply slope_vanishes, H|]; apply near_around; exists (mkposreal 1 Rlt_0_1); intros t _; cbn; apply slope_eq. Qed.

Lemma partial_real Q x j l : partial R RO Rle Q x j l <-> real_partial Q x j l.
Proof.
  split.
  - intros (v & s & Vs & N); exists (fun h => v + l * h + s h * h); split; [apply near_around; exact N|].
    assert (J : jet1 (fun h => v + l * h + s h * h) v l) by (exists s; split; [exact Vs|]; apply near_around; exists (mkposreal 1 Rlt_0_1); intros; reflexivity).
    apply (jet1_derivable _ _ _ J).
  - intros (f & A & D); exists (f 0), (slope f l); split; [apply slope_vanishes, D|]; apply near_around; revert A; apply around_mono; intros h H.
    cbn; rewrite <- slope_eq; exact H.
Qed.
Lemma real_partial_ext (Q Q' : list R -> R -> Prop) x j l : (forall y v, Q y v <-> Q' y v) -> real_partial Q x j l <-> real_partial Q' x j l.
Proof. intros H; split; intros (f & A & D); exists f; (split; [|exact D]); revert A; apply around_mono; intros h; apply H. Qed.
Lemma partial2_real Q x c d l : partial2 R RO Rle Q x c d l <-> real_partial2 Q x c d l.
Proof.
  unfold partial2, real_partial2; rewrite partial_real; apply real_partial_ext; intros y v; apply partial_real.
Qed.

(** ** Small quantities *)
Lemma goes_to_zero_iff r : goes_to_zero r <-> exists s, vanishes s /\ forall t, t <> 0 -> r t = s t.
Proof.
  split.
  - intros H; exists (fun t => if Req_EM_T t 0 then 0 else r t); split; [|intros t Nt; destruct (Req_EM_T t 0); [contradiction|reflexivity]].
    apply vanishes_iff; intros e He; destruct (H e He) as (d & Hd & H'); exists (mkposreal d Hd); intros t Ht; destruct (Req_EM_T t 0); [rewrite Rabs_R0; lra|].
    specialize (H' t); cbn in H'; unfold R_dist in H'; rewrite !Rminus_0_r in H'; apply Rlt_le, H'; split; [assumption|exact Ht].
  - intros (s & Vs & E) e He; rewrite vanishes_iff in Vs; destruct (Vs (e / 2) ltac:(lra)) as (d & Hd); exists d; split; [apply cond_pos|]; intros t [Nt Ht]; cbn in *; unfold R_dist in *; rewrite Rminus_0_r in *.
    rewrite (E t Nt); specialize (Hd t Ht); lra.
Qed.

(** ** Smooth functions *)
Section Smooth.
  Variables f f1 f2 : R -> R.
  Variable D : R -> Prop.
  Hypothesis Op : forall a, D a -> around (fun t => D (a + t)).
  Hypothesis H1 : forall a, D a -> derivable_pt_lim f a (f1 a).
  Hypothesis H2 : forall a, D a -> derivable_pt_lim f1 a (f2 a).
  Lemma shifted g a l : derivable_pt_lim g a l -> derivable_pt_lim (fun t => g (a + t)) 0 l.
  Proof using. intros H e He; destruct (H e He) as (d & Hd); exists d; intros h Nh Hh; rewrite Rplus_0_l, Rplus_0_r; apply Hd; assumption. Qed.
  Lemma shifted_at g a t l : derivable_pt_lim g (a + t) l -> derivable_pt_lim (fun t => g (a + t)) t l.
  Proof using. intros H e He; destruct (H e He) as (d & Hd); exists d; intros h Nh Hh; rewrite <- Rplus_assoc; apply Hd; assumption. Qed.
  Definition bend (a t : R) : R := if Req_EM_T t 0 then 0 else (f (a + t) - f a - f1 a * t - f2 a / 2 * (t * t)) / (t * t).
  Lemma bend_vanishes a : D a -> vanishes (bend a).
  Proof using All.
    intros Ha; apply vanishes_iff; intros e He.
    pose proof (slope_vanishes _ _ (shifted _ _ _ (H2 a Ha))) as Vs; rewrite vanishes_iff in Vs.
    destruct (around_and _ _ (Op a Ha) (Vs e He)) as (d & Hd); exists d; intros t Ht; unfold bend; destruct (Req_EM_T t 0) as [->|Nt]; [rewrite Rabs_R0; lra|].
    set (g := fun t => f (a + t) - f a - f1 a * t - f2 a / 2 * (t * t)).
    set (g' := fun t => f1 (a + t) - f1 a - f2 a * t).
    assert (Dg : forall c, Rabs c < d -> derivable_pt_lim g c (g' c)).
    { intros c Hc; destruct (Hd c Hc) as [Dc _]; unfold g, g'.
      replace (f1 (a + c) - f1 a - f2 a * c) with (f1 (a + c) - 0 - f1 a * 1 - f2 a / 2 * (1 * c + c * 1)) by field.
      apply (derivable_pt_lim_minus (fun t => f (a + t) - f a - f1 a * t) (fun t => f2 a / 2 * (t * t))).
      - apply (derivable_pt_lim_minus (fun t => f (a + t) - f a) (fun t => f1 a * t)).
        + apply (derivable_pt_lim_minus (fun t => f (a + t)) (fun _ => f a)); [apply shifted_at, H1, Dc|apply derivable_pt_lim_const].
        + apply (derivable_pt_lim_scal (fun t => t)), derivable_pt_lim_id.
      - apply (derivable_pt_lim_scal (fun t => t * t)), (derivable_pt_lim_mult (fun t => t) (fun t => t)); apply derivable_pt_lim_id. }
    assert (B : forall c, Rabs c <= Rabs t -> Rabs (g' c) <= e * Rabs t).
    { intros c Hc; destruct (Hd c ltac:(lra)) as [_ S]; unfold g'; unfold slope in S; destruct (Req_EM_T c 0) as [->|Nc].
      - rewrite !Rplus_0_r; replace (f1 a - f1 a - f2 a * 0) with 0 by ring; rewrite Rabs_R0; apply Rmult_le_pos; [lra|apply Rabs_pos].
      - rewrite Rplus_0_r in S; replace (f1 (a + c) - f1 a - f2 a * c) with (((f1 (a + c) - f1 a) / c - f2 a) * c) by (field; exact Nc).
        rewrite Rabs_mult; apply Rmult_le_compat; [apply Rabs_pos|apply Rabs_pos|exact S|exact Hc]. }
    assert (G : exists c, g t = g' c * t /\ Rabs c <= Rabs t).
    { assert (G0 : g 0 = 0) by (unfold g; rewrite Rplus_0_r; ring).
      destruct (Rtotal_order t 0) as [L|[E|L]]; [|contradiction|].
      - destruct (MVT_cor2 g g' t 0 L) as (c & Ec & Hc).
        { intros c Hc; apply Dg; rewrite Rabs_left1 by lra; rewrite Rabs_left in Ht by lra; lra. }
        exists c; split; [rewrite G0 in Ec; lra|rewrite !Rabs_left by lra; lra].
      - destruct (MVT_cor2 g g' 0 t L) as (c & Ec & Hc).
        { intros c Hc; apply Dg; rewrite Rabs_right by lra; rewrite Rabs_right in Ht by lra; lra. }
        exists c; split; [rewrite G0 in Ec; lra|rewrite !Rabs_right by lra; lra]. }
    destruct G as (c & Ec & Hc); change (Rabs (g t / (t * t)) <= e); rewrite Ec.
    replace (g' c * t / (t * t)) with (g' c / t) by (field; exact Nt); unfold Rdiv; rewrite Rabs_mult, Rabs_inv; specialize (B c Hc); pose proof (Rabs_pos_lt t Nt).
    apply (Rmult_le_reg_r (Rabs t)); [assumption|]; rewrite Rmult_assoc, Rinv_l by lra; lra.
  Qed.
  Lemma smooth_real : smooth R RO Rle (SmoothFun f f1 f2 D).
  Proof using All.
    intros a Ha; cbn in Ha; cbn [sdom sf sf1 sf2]; split; [apply near_around, Op, Ha|]; split.
    - exists (bend a); split; [apply bend_vanishes, Ha|]; apply near_around; exists (mkposreal 1 Rlt_0_1); intros t _; cbn [radd rmul rdiv RO twice_one r1]; unfold bend.
      destruct (Req_EM_T t 0) as [->|Nt]; [unfold Rdiv; rewrite Rplus_0_r; ring|unfold twice_one; cbn; field; exact Nt].
    - pose proof (derivable_jet1 _ _ (shifted _ _ _ (H2 a Ha))) as J; cbn beta in J; rewrite Rplus_0_r in J; exact J.
  Qed.
End Smooth.

(** ** The functions of the language *)
Lemma open_all (a : R) : True -> around (fun _ => True).
Proof. intros _; exists (mkposreal 1 Rlt_0_1); auto. Qed.
Lemma open_pos a : 0 < a -> around (fun t => 0 < a + t).
Proof. intros H; exists (mkposreal a H); cbn; intros t Ht; apply Rabs_def2 in Ht; lra. Qed.
Lemma open_between a : -1 < a < 1 -> around (fun t => -1 < a + t < 1).
Proof.
  intros H; assert (Hd : 0 < Rmin (a + 1) (1 - a)) by (apply Rmin_pos; lra); exists (mkposreal _ Hd); cbn; intros t Ht; apply Rabs_def2 in Ht.
  pose proof (Rmin_l (a + 1) (1 - a)); pose proof (Rmin_r (a + 1) (1 - a)); lra.
Qed.
Lemma open_nonzero (g : R -> R) a : continuity_pt g a -> g a <> 0 -> around (fun t => g (a + t) <> 0).
Proof.
  intros C N; destruct (C (Rabs (g a)) (Rabs_pos_lt _ N)) as (d & Hd & H); exists (mkposreal d Hd); cbn in *; intros t Ht E.
  destruct (Req_dec t 0) as [->|Nt]; [rewrite Rplus_0_r in E; contradiction|].
  specialize (H (a + t)); unfold D_x, no_cond, R_dist in H; rewrite E in H; replace (a + t - a) with t in H by ring; rewrite Rminus_0_l, Rabs_Ropp in H.
  apply (Rlt_irrefl (Rabs (g a))), H; repeat split; [lra|exact Ht].
Qed.

Lemma derive_inv a : a <> 0 -> derivable_pt_lim Rinv a (- / (a * a)).
Proof.
  intros H; replace (- / (a * a)) with ((0 * a - 1 * 1) / Rsqr a) by (unfold Rsqr; field; exact H).
  apply (derivable_pt_lim_ext (fun x => 1 / x)); [intros; unfold Rdiv; ring|]; apply (derivable_pt_lim_div (fun _ => 1) (fun x => x)); [apply derivable_pt_lim_const|apply derivable_pt_lim_id|exact H].
Qed.
Lemma derive_recip g a l : g a <> 0 -> derivable_pt_lim g a l -> derivable_pt_lim (fun x => / g x) a (- l / (g a * g a)).
Proof.
  intros N H; replace (- l / (g a * g a)) with (- / (g a * g a) * l) by (field; exact N); apply (derivable_pt_lim_comp g Rinv); [exact H|apply derive_inv, N].
Qed.
Lemma derive_over g a l c : derivable_pt_lim g a l -> derivable_pt_lim (fun x => g x / c) a (l / c).
Proof. intros H; apply (derivable_pt_lim_div_scal g); exact H. Qed.
Lemma derive_from (f g : R -> R) x l : around (fun t => f (x + t) = g (x + t)) -> derivable_pt_lim f x l -> derivable_pt_lim g x l.
Proof.
  intros A H e He; destruct (H e He) as (d & Hd); pose proof (around_zero _ A) as E0; cbn in E0; rewrite Rplus_0_r in E0.
  assert (A' : around (fun t => Rabs t < d)) by (exists d; auto); destruct (around_and _ _ A A') as (b & Hb); exists b; intros h Nh Hh; destruct (Hb h Hh) as [E ?].
  rewrite <- E, <- E0; apply Hd; assumption.
Qed.
Lemma derive_sign a : a <> 0 -> derivable_pt_lim r_sign a 0.
Proof.
  intros N; apply (derive_from (fun _ => r_sign a)); [|apply derivable_pt_lim_const].
  exists (mkposreal _ (Rabs_pos_lt a N)); cbn; intros t Ht; unfold r_sign, Rabs in *; repeat destruct (Rlt_dec _ _); destruct (Rcase_abs a), (Rcase_abs t); lra.
Qed.
Lemma derive_abs a : a <> 0 -> derivable_pt_lim Rabs a (r_sign a).
Proof.
  intros N; unfold r_sign; destruct (Rlt_dec 0 a); [apply Rabs_derive_1; assumption|]; destruct (Rlt_dec a 0); [apply Rabs_derive_2; assumption|lra].
Qed.
Lemma derive_tan a : cos a <> 0 -> derivable_pt_lim tan a (1 + tan a * tan a).
Proof.
  intros N; replace (1 + tan a * tan a) with ((cos a * cos a - - sin a * sin a) / Rsqr (cos a)) by (unfold tan, Rsqr; field; exact N).
  apply (derivable_pt_lim_ext (fun x => sin x / cos x)); [reflexivity|]; apply (derivable_pt_lim_div sin cos); [apply derivable_pt_lim_sin|apply derivable_pt_lim_cos|exact N].
Qed.
Lemma derive_asin a : -1 < a < 1 -> derivable_pt_lim asin a (/ sqrt (1 - a * a)).
Proof. intros H; pose proof (derive_pt_asin a H) as E; apply derive_pt_eq_1 in E; replace (/ sqrt (1 - a * a)) with (1 / sqrt (1 - Rsqr a)) by (unfold Rsqr, Rdiv; ring); exact E. Qed.
Lemma derive_acos a : -1 < a < 1 -> derivable_pt_lim acos a (- / sqrt (1 - a * a)).
Proof. intros H; pose proof (derive_pt_acos a H) as E; apply derive_pt_eq_1 in E; replace (- / sqrt (1 - a * a)) with (-1 / sqrt (1 - Rsqr a)) by (unfold Rsqr, Rdiv; ring); exact E. Qed.
Lemma derive_square a : derivable_pt_lim (fun x => x * x) a (2 * a).
Proof. exact (derivable_pt_lim_Rsqr a). Qed.
Lemma between_pos a : -1 < a < 1 -> 0 < 1 - a * a.
Proof. intros H; replace (1 - a * a) with ((1 - a) * (1 + a)) by ring; apply Rmult_lt_0_compat; lra. Qed.
Lemma derive_root a : -1 < a < 1 -> derivable_pt_lim (fun x => / sqrt (1 - x * x)) a (a / ((1 - a * a) * sqrt (1 - a * a))).
Proof.
  intros H; pose proof (between_pos a H) as Hp; pose proof (sqrt_lt_R0 _ Hp) as Hs; pose proof (sqrt_sqrt (1 - a * a) ltac:(lra)) as Q.
  replace (a / ((1 - a * a) * sqrt (1 - a * a))) with (- (/ (2 * sqrt (1 - a * a)) * (0 - 2 * a)) / (sqrt (1 - a * a) * sqrt (1 - a * a))) by (rewrite Q; field; lra).
  apply (derive_recip (fun x => sqrt (1 - x * x))); [lra|].
  apply (derivable_pt_lim_comp (fun x => 1 - x * x) sqrt); [|apply derivable_pt_lim_sqrt; lra].
  apply (derivable_pt_lim_minus (fun _ => 1) (fun x => x * x)); [apply derivable_pt_lim_const|apply derive_square].
Qed.
Lemma smooth_fns g : smooth R RO Rle (real_fns g).
Proof.
  unfold real_fns; repeat match goal with |- smooth _ _ _ (if ?b then _ else _) => destruct b end.
  - apply smooth_real; [exact open_all|intros; apply derivable_pt_lim_exp|intros; apply derivable_pt_lim_exp].
  - apply smooth_real; [exact open_pos|intros; apply derivable_pt_lim_ln; assumption|intros; apply derive_inv; lra].
  - apply smooth_real; [exact open_pos|intros; apply derive_over, derivable_pt_lim_ln; assumption|intros; apply derive_over, derive_inv; lra].
  - apply smooth_real; [exact open_pos|intros; apply derivable_pt_lim_sqrt; assumption|].
    intros a Ha; pose proof (sqrt_lt_R0 a Ha) as Hs; pose proof (sqrt_sqrt a ltac:(lra)) as Q.
    replace (- / (4 * (a * sqrt a))) with (- (2 * / (2 * sqrt a)) / (2 * sqrt a * (2 * sqrt a))).
    + apply (derive_recip (fun x => 2 * sqrt x)); [lra|]; apply (derivable_pt_lim_scal sqrt), derivable_pt_lim_sqrt, Ha.
    + replace (2 * sqrt a * (2 * sqrt a)) with (4 * a) by (rewrite <- Q at 1; ring); field; lra.
  - apply smooth_real; [intros a; apply (open_nonzero (fun x => x)), derivable_continuous_pt, derivable_pt_id|exact derive_abs|exact derive_sign].
  - apply smooth_real; [intros a; apply (open_nonzero (fun x => x)), derivable_continuous_pt, derivable_pt_id|exact derive_sign|intros; apply derivable_pt_lim_const].
  - apply smooth_real; [exact open_all|intros; apply derivable_pt_lim_sin|intros; apply derivable_pt_lim_cos].
  - apply smooth_real; [exact open_all|intros; apply derivable_pt_lim_cos|intros; apply (derivable_pt_lim_opp sin), derivable_pt_lim_sin].
  - apply smooth_real; [intros a; apply open_nonzero, derivable_continuous_pt, derivable_pt_cos|exact derive_tan|].
    intros a N; replace (2 * tan a * (1 + tan a * tan a)) with (0 + ((1 + tan a * tan a) * tan a + tan a * (1 + tan a * tan a))) by ring.
    apply (derivable_pt_lim_plus (fun _ => 1) (fun x => tan x * tan x)); [apply derivable_pt_lim_const|apply (derivable_pt_lim_mult tan tan); apply derive_tan, N].
  - apply smooth_real; [exact open_between|exact derive_asin|exact derive_root].
  - apply smooth_real; [exact open_between|exact derive_acos|intros; apply (derivable_pt_lim_opp (fun x => / sqrt (1 - x * x))), derive_root; assumption].
  - apply smooth_real; [exact open_all|intros a _; replace (/ (1 + a * a)) with (/ (1 + a ^ 2)) by (f_equal; ring); apply derivable_pt_lim_atan|].
    intros a _; assert (N : 1 + a * a <> 0) by (pose proof (Rle_0_sqr a); unfold Rsqr in *; lra); apply (derive_recip (fun x => 1 + x * x)); [exact N|].
    replace (2 * a) with (0 + 2 * a) by ring; apply (derivable_pt_lim_plus (fun _ => 1) (fun x => x * x)); [apply derivable_pt_lim_const|apply derive_square].
  - intros a [].
Qed.

(** ** Powers *)
Lemma integer_some k z : integer k = Some z -> k = IZR z.
Proof. unfold integer; destruct (Req_EM_T (IZR (Int_part k)) k) as [E|]; [|discriminate]; intros H; injection H as <-; symmetry; exact E. Qed.
Lemma derive_pow n a : derivable_pt_lim (fun x => x ^ n) a (INR n * a ^ pred n).
Proof. apply derivable_pt_lim_pow. Qed.
Lemma derive_powerRZ z a : (0 <= z)%Z \/ a <> 0 -> derivable_pt_lim (fun x => powerRZ x z) a (IZR z * powerRZ a (z - 1)).
Proof.
  intros H; destruct (Z_le_gt_dec 0 z) as [P|N].
  - destruct (Z_of_nat_complete z P) as (n & ->); rewrite <- INR_IZR_INZ; apply (derivable_pt_lim_ext (fun x => x ^ n)); [intros; apply pow_powerRZ|].
    destruct n as [|n]; [cbn [INR]; rewrite Rmult_0_l; cbn [pow]; apply derivable_pt_lim_const|].
    replace (Z.of_nat (S n) - 1)%Z with (Z.of_nat n) by lia; rewrite <- pow_powerRZ; apply derive_pow.
  - assert (Na : a <> 0) by (destruct H; [lia|assumption]).
    assert (E : exists n, z = (- Z.of_nat (S n))%Z) by (exists (Z.to_nat (- z - 1)); lia); destruct E as (n & ->).
    apply (derivable_pt_lim_ext (fun x => / (x ^ S n))).
    { intros x; destruct (Z.of_nat (S n)) as [|p|p] eqn:E; try lia; cbn [Z.opp powerRZ]; f_equal; f_equal; apply (f_equal Z.to_nat) in E; rewrite Nat2Z.id in E; rewrite E; reflexivity. }
    replace (IZR (- Z.of_nat (S n)) * powerRZ a (- Z.of_nat (S n) - 1)) with (- (INR (S n) * a ^ pred (S n)) / (a ^ S n * a ^ S n)).
    + apply (derive_recip (fun x => x ^ S n)); [apply pow_nonzero, Na|apply derive_pow].
    + replace (- Z.of_nat (S n) - 1)%Z with (- Z.of_nat (S (S n)))%Z by lia; rewrite powerRZ_neg', <- pow_powerRZ.
      rewrite opp_IZR, <- INR_IZR_INZ; cbn [pred pow]; field; split; [apply pow_nonzero, Na|exact Na].
Qed.
Lemma derive_Rpower k a : 0 < a -> derivable_pt_lim (fun x => Rpower x k) a (k * Rpower a (k - 1)).
Proof. apply derivable_pt_lim_power. Qed.
Lemma smooth_pows k : smooth R RO Rle (real_pows k).
Proof.
  unfold real_pows; destruct (integer k) as [z|] eqn:E.
  - apply integer_some in E; subst k; apply smooth_real.
    + intros a [H|H]; [exists (mkposreal 1 Rlt_0_1); intros; left; exact H|].
      apply (around_mono (fun t => a + t <> 0)); [intros; right; assumption|]; apply (open_nonzero (fun x => x)); [apply derivable_continuous_pt, derivable_pt_id|exact H].
    + intros a Ha; apply derive_powerRZ, Ha.
    + intros a Ha; destruct (Z.eq_dec z 0) as [->|Nz].
      { rewrite Rmult_0_l; apply (derivable_pt_lim_ext (fun _ => 0)); [intros; ring|apply derivable_pt_lim_const]. }
      apply (derivable_pt_lim_scal (fun x => powerRZ x (z - 1))); replace (IZR z - 1) with (IZR (z - 1)) by (rewrite minus_IZR; reflexivity); replace (z - 2)%Z with (z - 1 - 1)%Z by lia.
      apply derive_powerRZ; destruct Ha as [Hz|Ha]; [left; lia|right; exact Ha].
  - apply smooth_real; [exact open_pos|exact (derive_Rpower k)|].
    intros a Ha; apply (derivable_pt_lim_scal (fun x => Rpower x (k - 1))); replace (k - 2) with (k - 1 - 1) by ring; apply derive_Rpower, Ha.
Qed.

(** ** The operators *)
Lemma is_pos_true x : 0 < x -> is_pos x = true.
Proof. intros H; unfold is_pos; destruct (Rlt_dec 0 x); [reflexivity|contradiction]. Qed.
Lemma is_pos_false x : x <= 0 -> is_pos x = false.
Proof. intros H; unfold is_pos; destruct (Rlt_dec 0 x); [lra|reflexivity]. Qed.
Lemma is_zero_false x : x <> 0 -> is_zero x = false.
Proof. intros H; unfold is_zero; destruct (Req_EM_T x 0); [contradiction|reflexivity]. Qed.
Lemma real_interprets : interprets R RO Rle real_ops real_fns real_pows.
Proof.
  constructor; try reflexivity.
  - intros x y Hy; cbn; rewrite is_zero_false by exact Hy; reflexivity.
  - intros g x; cbn [o_fun real_ops]; unfold real_fns, real_fun.
    repeat match goal with |- context [if ?b then _ else _] => destruct b end; cbn [sdom sf fn_exp fn_log fn_log10 fn_sqrt fn_abs fn_sign fn_sin fn_cos fn_tan fn_asin fn_acos fn_atan fn_none]; intros H; try reflexivity.
    + rewrite is_pos_true by exact H; reflexivity.
    + rewrite is_pos_true by exact H; reflexivity.
    + rewrite is_pos_false by lra; reflexivity.
    + rewrite is_pos_false by (pose proof (between_pos x H); lra); reflexivity.
    + rewrite is_pos_false by (pose proof (between_pos x H); lra); reflexivity.
    + destruct H.
  - intros k x; cbn [o_bin real_ops]; unfold real_pows, real_power; destruct (integer k) as [z|]; cbn [sdom sf]; intros H.
    + destruct (0 <=? z)%Z eqn:E; [reflexivity|]; apply Z.leb_gt in E; destruct H as [H|H]; [lia|]; rewrite is_zero_false by exact H; reflexivity.
    + rewrite is_pos_true by exact H; reflexivity.
  - intros a b; cbn [o_bin real_ops]; change (real_fns "log") with fn_log; change (real_fns "exp") with fn_exp; cbn [sdom sf fn_log fn_exp]; intros H _; unfold real_power.
    destruct (integer b) as [z|] eqn:E.
    + apply integer_some in E; subst b; rewrite is_zero_false by lra; rewrite orb_true_r; cbn [guarded]; rewrite powerRZ_Rpower by exact H; reflexivity.
    + rewrite is_pos_true by exact H; reflexivity.
  - exact smooth_fns.
  - exact smooth_pows.
Qed.
