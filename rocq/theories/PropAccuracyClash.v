(** Names that clash, to second order: the solution that is returned does not solve the equations
    to second order (C79). *)
From Verif Require Import Base Syntax Lexer Parser Eval EvalSpec Semantics Factory FactorySpec Calib CalibSpec CalibProofs Indexing IndexingSpec DynFunc DynSpec DynProofs Vars ExprList
  ModelState ModelStateSpec ModelStateProofs ModelStateProofs2 PropModel OutlineSpec PropDyn
  Nd NdInst Mat NdProofs SimSpec OrderProofs CalcSpec CalcProofs CalcProofs2 CalcProofs3 Linearize LinearizeSpec LinearizeProofs Steady SteadyValues SteadyValuesSpec PropSteadyValues
  FirstOrder FirstOrderSpec PropFirst Sylvester SylvesterSpec SecondOrder SecondOrderSpec PropSecond AccuracySpec PropAccuracy FirstOrderExample Gauss SylvesterExample LinearExample
  PropLinear Pipeline PipelineSpec PipelineProofs PropPipeline Sim PathSim PathSimSpec PropPathSim PropPipelineClash.
From Coq Require Import ZArith QArith Qcanon.
Local Open Scope string_scope.
Local Open Scope list_scope.
Local Open Scope nat_scope.

(** The file of C92_refuted with one more variable with a lead, without which there is no
    second-order solution (C75). *)
Definition dtext : string := "var x xm1 w; varexo e; model; x = 0.5*x(-1) + e; xm1(+1) = 2*xm1; w(+1) = 2.75*w; end; shocks; var e; stderr 1; end;".
Definition dfile : res (modfile Qc) := parse_file Qc q_decimal q_trunc z0 (chars dtext).
Definition dendog : list string := ["x"; "xm1"; "w"].
Definition deq3 : ast Qc := Bin BSub (PVar "w" 1) (Bin BMul (Num (q 11 4)) (Var "w")).
Definition dmodel : list (ast Qc) := [ceq1; ceq2; deq3].
Definition dsig : list (nat * Z) := [(0, (-1)%Z); (0, 0%Z); (1, 0%Z); (2, 0%Z); (1, 1%Z); (2, 1%Z)].
Lemma dmodel_signature : signature Qc dendog dmodel dsig.
Proof.
  split.
  - intros i k; split.
    + intros [E|[E|[E|[E|[E|[E|[]]]]]]]; injection E as <- <-.
      * exists "x", ceq1; split; [reflexivity|]; split; [left; reflexivity|apply P_binr, P_binl, P_binr; constructor].
      * exists "x", ceq1; split; [reflexivity|]; split; [left; reflexivity|apply P_binl; constructor].
      * exists "xm1", ceq2; split; [reflexivity|]; split; [right; left; reflexivity|apply P_binr, P_binr; constructor].
      * exists "w", deq3; split; [reflexivity|]; split; [right; right; left; reflexivity|apply P_binr, P_binr; constructor].
      * exists "xm1", ceq2; split; [reflexivity|]; split; [right; left; reflexivity|apply P_binl; constructor].
      * exists "w", deq3; split; [reflexivity|]; split; [right; right; left; reflexivity|apply P_binl; constructor].
    + intros (x & e & Hi & He & Hp); destruct i as [|[|[|i]]]; cbn [dendog nth_error] in Hi; try (destruct i; discriminate); injection Hi as <-;
        cbn [dmodel In] in He; destruct He as [<-|[<-|[<-|[]]]]; unfold ceq1, ceq2, deq3 in Hp; invert_tree; cbn [In dsig]; tauto.
  - intros a b u v Hab Ha Hb; destruct a as [|[|[|[|[|[|a]]]]]], b as [|[|[|[|[|[|b]]]]]]; try lia; cbn in Ha, Hb; try (destruct a; discriminate Ha); try (destruct b; discriminate Hb);
      injection Ha as <-; injection Hb as <-; unfold before; cbn [fst snd]; lia.
Qed.
Definition d_residual (i : nat) (v : list Qc) : Qc :=
  match v with
  | [a; x; y; w; z; v; e] => match i with 0 => Qcminus x (Qcplus (Qcmult (q 1 2) a) e) | 1 => Qcminus z (Qcmult (q 2 1) y) | _ => Qcminus v (Qcmult (q 11 4) w) end
  | _ => z0
  end.
Definition d_slope (i j : nat) : Qc := nth j (nth i [[Qcopp (q 1 2); z1; z0; z0; z0; z0; Qcopp z1]; [z0; z0; Qcopp (q 2 1); z0; z1; z0; z0]; [z0; z0; z0; Qcopp (q 11 4); z0; z1; z0]] []) z0.
Lemma d_residual_slope i y j h : i < 3 -> List.length y = 7 -> j < 7 ->
  d_residual i (bump Qc QO y j h) = Qcplus (Qcplus (d_residual i y) (Qcmult (d_slope i j) h)) (Qcmult (Qcmult z0 h) h).
Proof.
  intros Hi Hy Hj; destruct y as [|a [|b [|c [|d [|e [|f [|g [|? ?]]]]]]]]; try discriminate Hy.
  destruct i as [|[|[|i]]]; [| | |lia]; destruct j as [|[|[|[|[|[|[|j]]]]]]]; try lia; cbn [bump d_residual d_slope nth radd QO]; unfold z0, z1; ring.
Qed.
Lemma d_residual_is i e y : nth_error dmodel i = Some e -> List.length y = 7 ->
  residual Qc q_ops dendog cstoch [] dsig e y (d_residual i y).
Proof.
  intros He Hy; destruct y as [|a [|b [|c [|d [|u [|v [|w [|? ?]]]]]]]]; try discriminate Hy; unfold residual; cbn [dsig List.length firstn skipn].
  destruct i as [|[|[|i]]]; [..|destruct i; discriminate He]; injection He as <-; cbn [d_residual]; unfold ceq1, ceq2, deq3.
  all: repeat match goal with
    | |- EvalSpec.value _ _ _ _ (Bin BSub _ _) (Qcminus ?a ?b) => apply (V_bin _ _ _ _ BSub) with a b; [| |reflexivity]
    | |- EvalSpec.value _ _ _ _ (Bin BAdd _ _) (Qcplus ?a ?b) => apply (V_bin _ _ _ _ BAdd) with a b; [| |reflexivity]
    | |- EvalSpec.value _ _ _ _ (Bin BMul _ _) (Qcmult ?a ?b) => apply (V_bin _ _ _ _ BMul) with a b; [| |reflexivity]
    | |- EvalSpec.value _ _ _ _ (Num _) _ => constructor
    | |- EvalSpec.value _ _ _ _ (PVar _ _) _ => constructor; unfold at_time
    | |- EvalSpec.value _ _ _ _ (Var _) _ => constructor; unfold plain; cbn [lookup]
    end.
  all: (left; exists 0, 1; repeat split; reflexivity) || (left; exists 1, 2; repeat split; reflexivity) || (left; exists 2, 3; repeat split; reflexivity) ||
       (right; exists 0; split; reflexivity) ||
       (exists 0, 0; repeat split; reflexivity) || (exists 1, 4; repeat split; reflexivity) || (exists 2, 5; repeat split; reflexivity).
Qed.
Lemma dmodel_differentiates l : signature Qc dendog dmodel l -> differentiates Qc QO Qcle q_ops dendog cstoch dmodel [] qgrad qjacobian l.
Proof.
  intros Sg; rewrite (signature_unique Qc dendog dmodel l dsig Sg dmodel_signature); unfold differentiates; change (List.length dsig + List.length cstoch) with 7; cbn zeta; intros e f He Hf.
  apply In_nth_error in He as (i & Hi); assert (Li : i < 3) by (change 3 with (List.length dmodel); apply nth_error_Some; congruence).
  assert (Ef : forall y, List.length y = 7 -> f y = Ok (d_residual i y)) by (intros y Hy; apply (Hf y Hy), d_residual_is; assumption).
  split.
  - apply (qgrad_ok 7 f (d_residual i) (fun _ => d_slope i) Ef); intros y j Hy Hj; exists z0; intros h; apply d_residual_slope; assumption.
  - apply (qjacobian_ok 7 f (d_residual i) (fun _ => d_slope i) (fun _ _ => z0) Ef).
    + intros y j Hy Hj; exists z0; intros h; apply d_residual_slope; assumption.
    + intros; unfold z0; ring.
Qed.
Lemma dmodel_smooth y : List.length y = 3 -> smooth_at Qc QO dendog cstoch dmodel [] no_function squares y.
Proof.
  intros Hy; destruct y as [|a [|b [|c [|? ?]]]]; try discriminate Hy; unfold smooth_at; cbn zeta; unfold dmodel, ceq1, ceq2, deq3; repeat (apply Forall_cons || apply Forall_nil); eexists.
  all: repeat match goal with
    | |- tame _ _ _ _ _ _ _ (Bin BSub _ _) _ => apply (S_sub Qc QO)
    | |- tame _ _ _ _ _ _ _ (Bin BAdd _ _) _ => apply (S_add Qc QO)
    | |- tame _ _ _ _ _ _ _ (Bin BMul _ _) _ => apply (S_mul Qc QO)
    | |- tame _ _ _ _ _ _ _ (Num _) _ => constructor
    | |- tame _ _ _ _ _ _ _ (PVar _ _) _ => constructor; unfold steady_plain; cbn [lookup]
    | |- tame _ _ _ _ _ _ _ (Var _) _ => constructor; unfold steady_plain; cbn [lookup]
    end.
  all: (left; exists 0; split; reflexivity) || (left; exists 1; split; reflexivity) || (left; exists 2; split; reflexivity) || (right; split; [left; reflexivity|reflexivity]).
Qed.
Lemma dmodel_steady : is_steady Qc QO q_ops dendog cstoch dmodel [] [z0; z0; z0].
Proof.
  split; [reflexivity|]; unfold dmodel, ceq1, ceq2, deq3; repeat (apply Forall_cons || apply Forall_nil); unfold steady_residual.
  - apply (V_bin _ _ _ _ BSub) with z0 z0; [| |cbn; f_equal; apply Qc_is_canon; vm_compute; reflexivity].
    + constructor; unfold steady_plain; cbn [lookup]; left; exists 0; split; reflexivity.
    + apply (V_bin _ _ _ _ BAdd) with z0 z0; [| |cbn; f_equal; apply Qc_is_canon; vm_compute; reflexivity].
      * apply (V_bin _ _ _ _ BMul) with (q 1 2) z0; [constructor| |cbn; f_equal; apply Qc_is_canon; vm_compute; reflexivity].
        constructor; unfold steady_plain; cbn [lookup]; left; exists 0; split; reflexivity.
      * constructor; unfold steady_plain; cbn [lookup]; right; split; [left; reflexivity|reflexivity].
  - apply (V_bin _ _ _ _ BSub) with z0 z0; [| |cbn; f_equal; apply Qc_is_canon; vm_compute; reflexivity].
    + constructor; unfold steady_plain; cbn [lookup]; left; exists 1; split; reflexivity.
    + apply (V_bin _ _ _ _ BMul) with (q 2 1) z0; [constructor| |cbn; f_equal; apply Qc_is_canon; vm_compute; reflexivity].
      constructor; unfold steady_plain; cbn [lookup]; left; exists 1; split; reflexivity.
  - apply (V_bin _ _ _ _ BSub) with z0 z0; [| |cbn; f_equal; apply Qc_is_canon; vm_compute; reflexivity].
    + constructor; unfold steady_plain; cbn [lookup]; left; exists 2; split; reflexivity.
    + apply (V_bin _ _ _ _ BMul) with (q 11 4) z0; [constructor| |cbn; f_equal; apply Qc_is_canon; vm_compute; reflexivity].
      constructor; unfold steady_plain; cbn [lookup]; left; exists 2; split; reflexivity.
Qed.

(** Routines for this model. *)
Definition d_minimize (_ : solver) (g : list Qc -> res Qc) (x0 : list Qc) : res (list Qc) :=
  if negb (List.length x0 =? 3) then Err ValueErr else if q_try g [z0; z0; z0] then Ok [z0; z0; z0] else Err ValueErr.
Lemma d_minimize_ok s m x0 y : d_minimize s (least_squares Qc QO q_ops m) x0 = Ok y -> least Qc Qcle (List.length x0) (least_squares Qc QO q_ops m) y.
Proof.
  unfold d_minimize; destruct (List.length x0 =? 3) eqn:E; cbn [negb]; [|discriminate]; apply Nat.eqb_eq in E; rewrite E.
  destruct (q_try _ _) eqn:T; [intros H; injection H as <-|discriminate]; split; [reflexivity|].
  unfold q_try in T; destruct (least_squares Qc QO q_ops m [z0; z0; z0]) as [v|] eqn:Ev; [|discriminate T].
  apply same_eq in T; subst v; exists z0; split; [reflexivity|]; intros z v _ H; unfold least_squares in H.
  destruct (mapM _ _) as [r|]; [|discriminate H]; injection H as <-.
  apply (sum_nonneg Qc QO Qcinv Q_field Qcle Q_ordered); intros i _; apply (sq_nonneg Qc QO Qcinv Q_field Qcle Q_ordered).
Qed.
Definition d_qr := qr_with [].
Definition d_qz := qz_with [Factors [[z0; q 1 2; z0]; [z0; q 2 1; z0]; [z0; z0; q 11 4]] (unit_table 3) [Fin z0 z0; Fin (q 2 1) z0; Fin (q 11 4) z0] (unit_table 3) (unit_table 3)].
Definition d_inv := inv_with [[]; [[z1]]; unit_table 2; unit_table 3].
Definition d_real := real_qz_with
  [([[z1; q (-1) 2; z0]; [z0; q (-2) 1; z0]; [z0; z0; q (-11) 4]], [[z0; z0; z0]; [z0; z1; z0]; [z0; z0; z1]], unit_table 3, unit_table 3);
   ([[z0]], [[z1]], unit_table 1, unit_table 1)].
Definition d_space := whole_space Qc QO q_ops qlt z0 d_minimize qgrad d_qr rank_all d_qz.
Definition d_solver := whole_solver Qc QO q_ops same z0 d_minimize qgrad qjacobian d_inv d_real qsolve.
Definition d_new := ModelState.new_model Qc q_ops (r0 QO) (r1 QO) q_true q_decimal q_trunc q_text (space_of Qc) (rules Qc) d_space.
Definition d_step := ModelState.step Qc q_ops (r0 QO) (r1 QO) q_true (fun _ => true) q_decimal q_trunc q_text false (space_of Qc) (rules Qc) d_space d_solver.

(** A root beyond one, and the steady state. *)
Definition dshow (sp : space_of Qc) : bool :=
  match eigen (sp_state sp) with [Fin a b; Fin c d; Fin e f] => same c (q 2 1) && same d z0 | _ => false end &&
  match sp_ss sp with [a; b; c] => same a z0 && same b z0 && same c z0 | _ => false end.
Lemma dshow_is sp : dshow sp = true -> sp_ss sp = [z0; z0; z0] /\ solvable Qc QO q_ops qgrad qjacobian Qcle no_function squares dendog cstoch [] dmodel sp.
Proof.
  intros H; unfold dshow in H; apply andb_true_iff in H as [H1 H2].
  destruct (sp_ss sp) as [|a [|b [|c [|? ?]]]] eqn:Es; try discriminate H2; do 2 apply andb_true_iff in H2 as [H2 ?].
  repeat match goal with G : same _ _ = true |- _ => apply same_eq in G end; subst; split; [reflexivity|].
  split; [exact dmodel_differentiates|]; split; [exists [z0; z0; z0]; exact dmodel_steady|]; rewrite Es; split; [apply dmodel_smooth; reflexivity|]; left.
  destruct (eigen (sp_state sp)) as [|[a' b'| |] [|[c' d| |] [|[e f| |] [|? ?]]]]; try discriminate H1; apply andb_true_iff in H1 as [X Y]; apply same_eq in X, Y; subst.
  eexists; split; [right; left; reflexivity|left; apply qlt_true; vm_compute; reflexivity].
Qed.

(** A rule by which x does not move with its past to first order is not one for the first
    equation, whatever its terms of second order. *)
Lemma half_not_small2 C : ~ small2 Qc QO Qcle (fun t => Qcminus (Qcmult C (Qcmult t t)) (Qcmult (q 1 2) t)).
Proof.
  intros (s & Vs & N).
  assert (E : Qcopp (q 1 2) = z0).
  { symmetry; apply (slope_is z0 z0 z0 (Qcopp (q 1 2)) (fun t => Qcmult (s t) t) C).
    - apply (CalcProofs.vanishes_mul_bounded Qc QO Qcinv Q_field Qcle Q_ordered s (fun t => t) Vs), (CalcProofs.vanishes_bounded Qc QO Qcinv Q_field Qcle Q_ordered), (CalcProofs.vanishes_id Qc QO Qcle).
    - revert N; apply near_mono; intros t E; cbn in E |- *.
      transitivity (Qcmult (s t) (Qcmult t t)); [unfold z0; ring|rewrite <- E; unfold z0; ring]. }
  discriminate E.
Qed.
Lemma deq1_value lag now next u v : equation_value Qc q_ops dendog cstoch [] lag now next u ceq1 v -> v = Qcminus (now 0) (Qcplus (Qcmult (q 1 2) (lag 0)) (u 0)).
Proof.
  assert (I0 : forall i, nth_error dendog i = Some "x" -> i = 0) by (intros [|[|[|[|i]]]] H; try discriminate H; reflexivity).
  assert (I1 : forall i, nth_error dendog i = Some "e" -> False) by (intros [|[|[|[|i]]]] H; discriminate H).
  assert (I2 : forall i, nth_error cstoch i = Some "e" -> i = 0) by (intros [|[|i]] H; try discriminate H; reflexivity).
  assert (I3 : forall i, nth_error cstoch i = Some "x" -> False) by (intros [|[|i]] H; discriminate H).
  unfold equation_value, ceq1; intros H.
  repeat match goal with H : EvalSpec.value _ _ _ _ _ _ |- _ => inversion H; subst; clear H end.
  cbn [lookup] in *.
  repeat match goal with H : (exists _, _) \/ (exists _, _) |- _ => destruct H as [(? & ? & ->)|(? & ? & ->)] | H : exists _, _ |- _ => destruct H as (? & ? & ->) end;
    repeat match goal with
    | H : nth_error dendog _ = Some "x" |- _ => apply I0 in H; subst
    | H : nth_error cstoch _ = Some "e" |- _ => apply I2 in H; subst
    | H : nth_error dendog _ = Some "e" |- _ => destruct (I1 _ H)
    | H : nth_error cstoch _ = Some "x" |- _ => destruct (I3 _ H)
    | H : o_bin q_ops _ _ _ = Ok _ |- _ => cbn [o_bin q_ops] in H; injection H as <-
    end; reflexivity.
Qed.
Lemma d_not_solved V gy gu xx xu uu dl : V 0 0 = z1 -> gy 0 = z0 -> ~ PipelineSpec.solves_second Qc QO Qcle q_ops dendog cstoch [] dmodel [z0; z0; z0] V (V1 3 gy) gu xx xu uu dl.
Proof.
  intros HV Hy (L & g & [Ll Oc] & Ab & Pr & Rk & E1 & E2 & _ & _ & _ & _ & G).
  assert (At : forall i k, i < 3 -> at_k L i k = existsb (fun p => (fst p =? i) && (snd p =? k)%Z) dsig).
  { intros i k Hi; apply Bool.eq_iff_eq_true; rewrite (Oc i k Hi), existsb_exists; split.
    - intros H; apply (proj1 dmodel_signature) in H; exists (i, k); split; [exact H|]; cbn [fst snd]; rewrite Nat.eqb_refl, Z.eqb_refl; reflexivity.
    - intros ([i' k'] & H & E); cbn [fst snd] in E; apply andb_true_iff in E as [Ea Eb]; apply Nat.eqb_eq in Ea; apply Z.eqb_eq in Eb; subst; apply (proj1 dmodel_signature), H. }
  destruct Ab as (A1 & A2 & A3 & A4); unfold members_of in A2, A3, A4; rewrite Ll in A1, A2, A3, A4; cbn [dendog List.length seq filter] in A1, A2, A3, A4.
  unfold static, pure_backward, IndexingSpec.mixed, pure_forward, backward in A2, A3, A4.
  pose proof (At 0 (-1)%Z ltac:(lia)) as B1; pose proof (At 0 1%Z ltac:(lia)) as B2; pose proof (At 1 (-1)%Z ltac:(lia)) as B3; pose proof (At 1 1%Z ltac:(lia)) as B4.
  pose proof (At 2 (-1)%Z ltac:(lia)) as B5; pose proof (At 2 1%Z ltac:(lia)) as B6.
  cbn in B1, B2, B3, B4, B5, B6; rewrite ?B1, ?B2, ?B3, ?B4, ?B5, ?B6 in A2; rewrite ?B1, ?B2, ?B3, ?B4, ?B5, ?B6 in A3; rewrite ?B1, ?B2, ?B3, ?B4, ?B5, ?B6 in A4; cbn in A2, A3, A4.
  rewrite A1, A4 in E1; cbn in E1; assert (Y0 : ry g 0 0 = z0) by (injection E1 as E1; rewrite <- Hy, E1; reflexivity).
  set (motion := fun (before u : nat -> Qc) (scale : Qc) (i : nat) =>
    radd QO (radd QO (radd QO (radd QO (radd QO (SimSpec.Sum Qc QO (rs g) (fun j => rmul QO (ry g i j) (before (state_at g j)))) (SimSpec.Sum Qc QO (rk g) (fun l => rmul QO (ru g i l) (u l))))
      (SimSpec.Sum Qc QO (rs g) (fun a => SimSpec.Sum Qc QO (rs g) (fun b => rmul QO (entries Qc xx i (a * rs g + b)) (rmul QO (before (state_at g a)) (before (state_at g b)))))))
      (SimSpec.Sum Qc QO (rs g) (fun a => SimSpec.Sum Qc QO (rk g) (fun l => rmul QO (entries Qc xu i (a * rk g + l)) (rmul QO (before (state_at g a)) (u l))))))
      (SimSpec.Sum Qc QO (rk g) (fun l => SimSpec.Sum Qc QO (rk g) (fun m => rmul QO (entries Qc uu i (l * rk g + m)) (rmul QO (u l) (u m))))))
      (rmul QO (entries Qc dl i 0) scale)).
  set (now := fun t : Qc => motion (fun _ => rmul QO t z1) (fun _ => rmul QO t z0) (rmul QO t t)).
  set (e := fun s (_ : nat) => if s =? 0 then z1 else Qcopp z1).
  set (next := fun (s : nat) (t : Qc) => motion (now t) (fun l => rmul QO t (e s l)) (rmul QO t t)).
  assert (Va : forall i, i < rn g -> var_at g i = i) by (rewrite A1; unfold var_at; rewrite A2; intros [|[|[|i]]] Hi; try lia; reflexivity).
  assert (C : AccuracySpec.centred Qc QO (List.length cstoch) 2 (fun _ => q 1 2) e).
  { split; [apply Qc_is_canon; vm_compute; reflexivity|]; intros l Hl; apply Qc_is_canon; vm_compute; reflexivity. }
  assert (K : AccuracySpec.covariance Qc QO (List.length cstoch) 2 (fun _ => q 1 2) e V).
  { intros [|l] [|m] Hl Hm; cbn in Hl, Hm; try lia; rewrite HV; apply Qc_is_canon; vm_compute; reflexivity. }
  specialize (G 2 (fun _ => q 1 2) e (fun _ => z1) (fun _ => z0) now next C K); cbn zeta in G.
  apply Forall_inv in G; [|intros t i Hi; rewrite (Va i Hi); reflexivity|intros s t _ i Hi; rewrite (Va i Hi); reflexivity].
  destruct G as (r & Hr & s & Vs & N); pose proof (Hr 0 ltac:(lia)) as R0; pose proof (Hr 1 ltac:(lia)) as R1; clear Hr.
  apply (half_not_small2 (Qcplus (entries Qc xx 0 0) (entries Qc dl 0 0))); exists s; split; [exact Vs|].
  pose proof (near_and Qc QO Qcinv Q_field Qcle Q_ordered _ _ (near_and Qc QO Qcinv Q_field Qcle Q_ordered _ _ R0 R1) N) as M; revert M; apply near_mono; intros t [[W0 W1] E]; rewrite <- E.
  apply deq1_value in W0, W1; cbn [SimSpec.Sum radd rmul QO]; rewrite W0, W1; unfold level, now, motion; rewrite A4, Rk; cbn [cstoch List.length SimSpec.Sum nth radd rmul QO r0 Nat.mul Nat.add]; rewrite Y0.
  assert (Hh : q 1 2 = Qcdiv z1 (Qcplus z1 z1)) by (apply Qc_is_canon; vm_compute; reflexivity); rewrite Hh; unfold z0, z1; field; discriminate.
Qed.

Definition drules (s : rules Qc) : bool := match s with Pipeline.Second (V1 3 gy) _ _ _ _ _ => same (gy 0) z0 | _ => false end.
Lemma drules_is s : drules s = true -> exists gy gu xx xu uu dl, s = Pipeline.Second (V1 3 gy) gu xx xu uu dl /\ gy 0 = z0.
Proof.
  destruct s as [|[|ny gy|] gu xx xu uu dl]; try discriminate; destruct ny as [|[|[|[|]]]]; try discriminate.
  cbn [drules]; intros H; apply same_eq in H; exists gy, gu, xx, xu, uu, dl; split; [reflexivity|exact H].
Qed.

(** The claim of C79 (and that of C92 to second order) without the condition on the names fails:
    the file is read, the model is made and solved to second order, its equations have a steady
    state and are smooth, but the rule that is returned does not solve them. *)
Theorem C79_refuted : q_promises /\
  qr_routine Qc QO d_qr /\ schur_routine Qc QO Qcle d_qz /\ inverse_routine Qc QO d_inv /\ linear_routine Qc QO qsolve /\
  real_schur_routine Qc QO d_real /\ fails_when_singular Qc QO qsolve /\ refuses_singular Qc QO qsolve /\
  (forall s m x0 y, d_minimize s (least_squares Qc QO q_ops m) x0 = Ok y -> least Qc Qcle (List.length x0) (least_squares Qc QO q_ops m) y) /\
  exists f out m m' gy gu xx xu uu dl sp sigma, parse_file Qc q_decimal q_trunc z0 (chars dtext) = Ok f /\
    Factory.read_model Qc q_ops (q 2 1) q_decimal q_trunc z0 (chars dtext) = Ok out /\ d_new (outline_args Qc out) = Ok m /\
    d_step (Solve 2) m = (m', Ok (OSolution (Pipeline.Second gy gu xx xu uu dl))) /\
    d_step (Read RSpace) m = (m, Ok (OValue (VSpace sp))) /\ snd (d_step (Read RSigma) m) = Ok (OValue (VSigma sigma)) /\
    OutlineSpec.named Qc "var" f = dendog /\ OutlineSpec.named Qc "varexo" f = cstoch /\ equations Qc f = dmodel /\
    model_scope Qc (definition _ _ _ m) = [] /\
    is_steady Qc QO q_ops dendog cstoch dmodel [] (sp_ss sp) /\
    solvable Qc QO q_ops qgrad qjacobian Qcle no_function squares dendog cstoch [] dmodel sp /\
    ~ PipelineSpec.solves_second Qc QO Qcle q_ops dendog cstoch [] dmodel (sp_ss sp) sigma gy gu xx xu uu dl.
Proof.
  split; [exact q_promises_kept|]; split; [apply qr_with_ok|]; split; [apply qz_with_ok|]; split; [apply inv_with_ok|]; split; [exact qsolve_ok|].
  split; [apply real_qz_with_ok|]; split; [exact qsolve_err|]; split; [exact qsolve_refuses|]; split; [exact d_minimize_ok|].
  assert (E : match dfile, Factory.read_model Qc q_ops (q 2 1) q_decimal q_trunc z0 (chars dtext) with
    | Ok f, Ok out => (OutlineSpec.named Qc "var" f = dendog /\ OutlineSpec.named Qc "varexo" f = cstoch /\ equations Qc f = dmodel) /\
        match d_new (outline_args Qc out) with Ok m =>
        match snd (d_step (Solve 2) m), snd (d_step (Read RSigma) m) with
        | Ok (OSolution s), Ok (OValue (VSigma sg)) => drules s && same (sg 0 0) z1 && dshow (ModelState.c_space _ _ (derived _ _ _ m)) = true /\ altered _ _ _ m = false /\ model_scope Qc (definition _ _ _ m) = [] | _, _ => False end | _ => False end
    | _, _ => False end) by (vm_compute; repeat split; reflexivity).
  destruct dfile as [f|] eqn:Ef; [|contradiction]; destruct (Factory.read_model _ _ _ _ _ _ _) as [out|] eqn:Eo; [|contradiction].
  destruct E as [(E1 & E2 & E3) E]; destruct (d_new _) as [m|] eqn:Em; [|contradiction]; destruct (d_step (Solve 2) m) as [m' [[| |s|]|]] eqn:Es; cbn [snd] in E; try contradiction.
  destruct (snd (d_step (Read RSigma) m)) as [[|[| | | |sg]| |]|] eqn:Eg; try contradiction.
  destruct E as (E & Al & Sc); apply andb_true_iff in E as [E Ec]; apply andb_true_iff in E as [Er Ev]; apply same_eq in Ev.
  apply drules_is in Er as (gy & gu & xx & xu & uu & dl & -> & Y0); apply dshow_is in Ec as [Ess Sv].
  exists f, out, m, m', (V1 3 gy), gu, xx, xu, uu, dl, (ModelState.c_space _ _ (derived _ _ _ m)), sg.
  split; [exact Ef|]; split; [reflexivity|]; split; [exact Em|]; split; [exact Es|].
  split; [unfold d_step, ModelState.step, ok_with, read, ensure; rewrite Al; reflexivity|]; split; [exact Eg|].
  do 4 (split; [assumption|]); rewrite Ess; split; [exact dmodel_steady|]; split; [exact Sv|apply d_not_solved; assumption].
Qed.
Print Assumptions C79_refuted.
