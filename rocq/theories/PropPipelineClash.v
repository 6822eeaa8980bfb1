(** A file whose names clash: the solution that is returned is not one of its equations, and the
    simulated paths do not satisfy them (C92 and C93). *)
From Verif Require Import Base Syntax Lexer Parser Eval EvalSpec Semantics Factory FactorySpec Calib CalibSpec CalibProofs Indexing IndexingSpec DynFunc DynSpec DynProofs Vars ExprList
  ModelState ModelStateSpec ModelStateProofs ModelStateProofs2 PropModel OutlineSpec PropDyn
  Nd NdInst Mat NdProofs SimSpec OrderProofs CalcSpec CalcProofs CalcProofs2 CalcProofs3 Linearize LinearizeSpec LinearizeProofs Steady SteadyValues SteadyValuesSpec PropSteadyValues
  FirstOrder FirstOrderSpec PropFirst Sylvester SylvesterSpec SecondOrder SecondOrderSpec PropSecond AccuracySpec PropAccuracy FirstOrderExample Gauss SylvesterExample LinearExample
  PropLinear Pipeline PipelineSpec PipelineProofs PropPipeline Sim PathSim PathSimSpec PropPathSim.
From Coq Require Import ZArith QArith Qcanon.
Local Open Scope string_scope.
Local Open Scope list_scope.
Local Open Scope nat_scope.

(** x depends on its own past; another variable is called xm1, which is also the name under
    which the past of x is compiled. *)
Definition ctext : string := "var x xm1; varexo e; model; x = 0.5*x(-1) + e; xm1(+1) = 2*xm1; end; shocks; var e; stderr 1; end;".
Definition cfile : res (modfile Qc) := parse_file Qc q_decimal q_trunc z0 (chars ctext).
Definition cendog : list string := ["x"; "xm1"].
Definition cstoch : list string := ["e"].
Definition ceq1 : ast Qc := Bin BSub (Var "x") (Bin BAdd (Bin BMul (Num (q 1 2)) (PVar "x" (-1))) (Var "e")).
Definition ceq2 : ast Qc := Bin BSub (PVar "xm1" 1) (Bin BMul (Num (q 2 1)) (Var "xm1")).
Definition cmodel : list (ast Qc) := [ceq1; ceq2].
Definition csig : list (nat * Z) := [(0, (-1)%Z); (0, 0%Z); (1, 0%Z); (1, 1%Z)].
Lemma cmodel_signature : signature Qc cendog cmodel csig.
Proof.
  split.
  - intros i k; split.
    + intros [E|[E|[E|[E|[]]]]]; injection E as <- <-.
      * exists "x", ceq1; split; [reflexivity|]; split; [left; reflexivity|apply P_binr, P_binl, P_binr; constructor].
      * exists "x", ceq1; split; [reflexivity|]; split; [left; reflexivity|apply P_binl; constructor].
      * exists "xm1", ceq2; split; [reflexivity|]; split; [right; left; reflexivity|apply P_binr, P_binr; constructor].
      * exists "xm1", ceq2; split; [reflexivity|]; split; [right; left; reflexivity|apply P_binl; constructor].
    + intros (x & e & Hi & He & Hp); destruct i as [|[|i]]; cbn [cendog nth_error] in Hi; try (destruct i; discriminate); injection Hi as <-;
        cbn [cmodel In] in He; destruct He as [<-|[<-|[]]]; unfold ceq1, ceq2 in Hp; invert_tree; cbn [In csig]; tauto.
  - intros a b u v Hab Ha Hb; destruct a as [|[|[|[|a]]]], b as [|[|[|[|b]]]]; try lia; cbn in Ha, Hb; try (destruct a; discriminate Ha); try (destruct b; discriminate Hb);
      injection Ha as <-; injection Hb as <-; unfold before; cbn [fst snd]; lia.
Qed.
Definition c_residual (i : nat) (v : list Qc) : Qc :=
  match v with
  | [a; x; y; z; e] => match i with 0 => Qcminus x (Qcplus (Qcmult (q 1 2) a) e) | _ => Qcminus z (Qcmult (q 2 1) y) end
  | _ => z0
  end.
Definition c_slope (i j : nat) : Qc := nth j (nth i [[Qcopp (q 1 2); z1; z0; z0; Qcopp z1]; [z0; z0; Qcopp (q 2 1); z1; z0]] []) z0.
Lemma c_residual_slope i y j h : i < 2 -> List.length y = 5 -> j < 5 ->
  c_residual i (bump Qc QO y j h) = Qcplus (Qcplus (c_residual i y) (Qcmult (c_slope i j) h)) (Qcmult (Qcmult z0 h) h).
Proof.
  intros Hi Hy Hj; destruct y as [|a [|b [|c [|d [|e [|? ?]]]]]]; try discriminate Hy.
  destruct i as [|[|i]]; [| |lia]; destruct j as [|[|[|[|[|j]]]]]; try lia; cbn [bump c_residual c_slope nth radd QO]; unfold z0, z1; ring.
Qed.
Lemma c_residual_is i e y : nth_error cmodel i = Some e -> List.length y = 5 ->
  residual Qc q_ops cendog cstoch [] csig e y (c_residual i y).
Proof.
  intros He Hy; destruct y as [|a [|b [|c [|d [|u [|? ?]]]]]]; try discriminate Hy; unfold residual; cbn [csig List.length firstn skipn].
  destruct i as [|[|i]]; [..|destruct i; discriminate He]; injection He as <-; cbn [c_residual]; unfold ceq1, ceq2.
  all: repeat match goal with
    | |- EvalSpec.value _ _ _ _ (Bin BSub _ _) (Qcminus ?a ?b) => apply (V_bin _ _ _ _ BSub) with a b; [| |reflexivity]
    | |- EvalSpec.value _ _ _ _ (Bin BAdd _ _) (Qcplus ?a ?b) => apply (V_bin _ _ _ _ BAdd) with a b; [| |reflexivity]
    | |- EvalSpec.value _ _ _ _ (Bin BMul _ _) (Qcmult ?a ?b) => apply (V_bin _ _ _ _ BMul) with a b; [| |reflexivity]
    | |- EvalSpec.value _ _ _ _ (Num _) _ => constructor
    | |- EvalSpec.value _ _ _ _ (PVar _ _) _ => constructor; unfold at_time
    | |- EvalSpec.value _ _ _ _ (Var _) _ => constructor; unfold plain; cbn [lookup]
    end.
  all: (left; exists 0, 1; repeat split; reflexivity) || (left; exists 1, 2; repeat split; reflexivity) || (right; exists 0; split; reflexivity) ||
       (exists 0, 0; repeat split; reflexivity) || (exists 1, 3; repeat split; reflexivity).
Qed.
Lemma cmodel_differentiates l : signature Qc cendog cmodel l -> differentiates Qc QO Qcle q_ops cendog cstoch cmodel [] qgrad qjacobian l.
Proof.
  intros Sg; rewrite (signature_unique Qc cendog cmodel l csig Sg cmodel_signature); unfold differentiates; change (List.length csig + List.length cstoch) with 5; cbn zeta; intros e f He Hf.
  apply In_nth_error in He as (i & Hi); assert (Li : i < 2) by (change 2 with (List.length cmodel); apply nth_error_Some; congruence).
  assert (Ef : forall y, List.length y = 5 -> f y = Ok (c_residual i y)) by (intros y Hy; apply (Hf y Hy), c_residual_is; assumption).
  split.
  - apply (qgrad_ok 5 f (c_residual i) (fun _ => c_slope i) Ef); intros y j Hy Hj; exists z0; intros h; apply c_residual_slope; assumption.
  - apply (qjacobian_ok 5 f (c_residual i) (fun _ => c_slope i) (fun _ _ => z0) Ef).
    + intros y j Hy Hj; exists z0; intros h; apply c_residual_slope; assumption.
    + intros; unfold z0; ring.
Qed.
Lemma cmodel_smooth y : List.length y = 2 -> smooth_at Qc QO cendog cstoch cmodel [] no_function squares y.
Proof.
  intros Hy; destruct y as [|a [|b [|? ?]]]; try discriminate Hy; unfold smooth_at; cbn zeta; unfold cmodel, ceq1, ceq2; repeat (apply Forall_cons || apply Forall_nil); eexists.
  all: repeat match goal with
    | |- tame _ _ _ _ _ _ _ (Bin BSub _ _) _ => apply (S_sub Qc QO)
    | |- tame _ _ _ _ _ _ _ (Bin BAdd _ _) _ => apply (S_add Qc QO)
    | |- tame _ _ _ _ _ _ _ (Bin BMul _ _) _ => apply (S_mul Qc QO)
    | |- tame _ _ _ _ _ _ _ (Num _) _ => constructor
    | |- tame _ _ _ _ _ _ _ (PVar _ _) _ => constructor; unfold steady_plain; cbn [lookup]
    | |- tame _ _ _ _ _ _ _ (Var _) _ => constructor; unfold steady_plain; cbn [lookup]
    end.
  all: (left; exists 0; split; reflexivity) || (left; exists 1; split; reflexivity) || (right; split; [left; reflexivity|reflexivity]).
Qed.
Lemma cmodel_steady : is_steady Qc QO q_ops cendog cstoch cmodel [] [z0; z0].
Proof.
  split; [reflexivity|]; unfold cmodel, ceq1, ceq2; repeat (apply Forall_cons || apply Forall_nil); unfold steady_residual.
  - apply (V_bin _ _ _ _ BSub) with z0 z0; [| |cbn; f_equal; apply Qc_is_canon; vm_compute; reflexivity].
    + constructor; unfold steady_plain; cbn [lookup]; left; exists 0; split; reflexivity.
    + apply (V_bin _ _ _ _ BAdd) with z0 z0; [| |cbn; f_equal; apply Qc_is_canon; vm_compute; reflexivity].
      * apply (V_bin _ _ _ _ BMul) with (q 1 2) z0; [constructor| |cbn; f_equal; apply Qc_is_canon; vm_compute; reflexivity].
        constructor; unfold steady_plain; cbn [lookup]; left; exists 0; split; reflexivity.
      * constructor; unfold steady_plain; cbn [lookup]; right; split; [left; reflexivity|reflexivity].
  - apply (V_bin _ _ _ _ BSub) with z0 z0; [| |cbn; f_equal; apply Qc_is_canon; vm_compute; reflexivity].
    + constructor; unfold steady_plain; cbn [lookup]; left; exists 1; split; reflexivity.
    + apply (V_bin _ _ _ _ BMul) with (q 2 1) z0; [constructor| |cbn; f_equal; apply Qc_is_canon; vm_compute; reflexivity].
      constructor; unfold steady_plain; cbn [lookup]; left; exists 1; split; reflexivity.
Qed.

(** Routines for this model. *)
Definition c_minimize (_ : solver) (g : list Qc -> res Qc) (x0 : list Qc) : res (list Qc) :=
  if negb (List.length x0 =? 2) then Err ValueErr else if q_try g [z0; z0] then Ok [z0; z0] else Err ValueErr.
Lemma c_minimize_ok s m x0 y : c_minimize s (least_squares Qc QO q_ops m) x0 = Ok y -> least Qc Qcle (List.length x0) (least_squares Qc QO q_ops m) y.
Proof.
  unfold c_minimize; destruct (List.length x0 =? 2) eqn:E; cbn [negb]; [|discriminate]; apply Nat.eqb_eq in E; rewrite E.
  destruct (q_try _ _) eqn:T; [intros H; injection H as <-|discriminate]; split; [reflexivity|].
  unfold q_try in T; destruct (least_squares Qc QO q_ops m [z0; z0]) as [v|] eqn:Ev; [|discriminate T].
  apply same_eq in T; subst v; exists z0; split; [reflexivity|]; intros z v _ H; unfold least_squares in H.
  destruct (mapM _ _) as [r|]; [|discriminate H]; injection H as <-.
  apply (sum_nonneg Qc QO Qcinv Q_field Qcle Q_ordered); intros i _; apply (sq_nonneg Qc QO Qcinv Q_field Qcle Q_ordered).
Qed.
Definition unit2 : table := [[z1; z0]; [z0; z1]].
Definition c_qr := qr_with [].
Definition c_qz := qz_with [Factors [[z0; q 1 2]; [z0; q 2 1]] unit2 [Fin z0 z0; Fin (q 2 1) z0] unit2 unit2].
Definition c_inv := inv_with [[]; [[z1]]; unit2].
Definition c_space := whole_space Qc QO q_ops qlt z0 c_minimize qgrad c_qr rank_all c_qz.
Definition c_solver := whole_solver Qc QO q_ops same z0 c_minimize qgrad qjacobian c_inv xyz2_real qsolve.
Definition c_new := ModelState.new_model Qc q_ops (r0 QO) (r1 QO) q_true q_decimal q_trunc q_text (space_of Qc) (rules Qc) c_space.
Definition c_step := ModelState.step Qc q_ops (r0 QO) (r1 QO) q_true (fun _ => true) q_decimal q_trunc q_text false (space_of Qc) (rules Qc) c_space c_solver.
Definition c_simulate := whole_simulate Qc QO q_ops (fun _ => true) z0 c_minimize q_chol c_space c_solver.
Lemma c_routines : qr_routine Qc QO c_qr /\ schur_routine Qc QO Qcle c_qz /\ inverse_routine Qc QO c_inv /\ linear_routine Qc QO qsolve /\
  (forall s m x0 y, c_minimize s (least_squares Qc QO q_ops m) x0 = Ok y -> least Qc Qcle (List.length x0) (least_squares Qc QO q_ops m) y).
Proof. split; [apply qr_with_ok|]; split; [apply qz_with_ok|]; split; [apply inv_with_ok|]; split; [exact qsolve_ok|exact c_minimize_ok]. Qed.

(** A root beyond one, and the steady state. *)
Definition cshow (sp : space_of Qc) : bool :=
  match eigen (sp_state sp) with [Fin a b; Fin c d] => same c (q 2 1) && same d z0 | _ => false end &&
  match sp_ss sp with [a; b] => same a z0 && same b z0 | _ => false end.
Lemma cshow_is sp : cshow sp = true -> sp_ss sp = [z0; z0] /\ solvable Qc QO q_ops qgrad qjacobian Qcle no_function squares cendog cstoch [] cmodel sp.
Proof.
  intros H; unfold cshow in H; apply andb_true_iff in H as [H1 H2].
  destruct (sp_ss sp) as [|a [|b [|? ?]]] eqn:Es; try discriminate H2; apply andb_true_iff in H2 as [X Y]; apply same_eq in X, Y; subst; split; [reflexivity|].
  split; [exact cmodel_differentiates|]; split; [exists [z0; z0]; exact cmodel_steady|]; rewrite Es; split; [apply cmodel_smooth; reflexivity|]; left.
  destruct (eigen (sp_state sp)) as [|[a' b'| |] [|[c' d| |] [|? ?]]]; try discriminate H1; apply andb_true_iff in H1 as [X Y]; apply same_eq in X, Y; subst.
  eexists; split; [right; left; reflexivity|left; apply qlt_true; vm_compute; reflexivity].
Qed.

(** A rule by which x does not depend on its past is not one for the first equation. *)
Lemma half_not_small : ~ small1 Qc QO Qcle (fun t => Qcplus z0 (Qcmult z1 (Qcminus z0 (Qcmult (q 1 2) t)))).
Proof.
  intros (s & Vs & N).
  assert (E : q 1 2 = z0).
  { apply (slope_is z0 (q 1 2) z0 z0 s z0 Vs); revert N; apply near_mono; intros t E; cbn in E |- *; rewrite <- E; unfold z0, z1; ring. }
  discriminate E.
Qed.
Lemma ceq1_value lag now next u v : equation_value Qc q_ops cendog cstoch [] lag now next u ceq1 v -> v = Qcminus (now 0) (Qcplus (Qcmult (q 1 2) (lag 0)) (u 0)).
Proof.
  assert (I0 : forall i, nth_error cendog i = Some "x" -> i = 0) by (intros [|[|[|i]]] H; try discriminate H; reflexivity).
  assert (I1 : forall i, nth_error cendog i = Some "e" -> False) by (intros [|[|[|i]]] H; discriminate H).
  assert (I2 : forall i, nth_error cstoch i = Some "e" -> i = 0) by (intros [|[|i]] H; try discriminate H; reflexivity).
  assert (I3 : forall i, nth_error cstoch i = Some "x" -> False) by (intros [|[|i]] H; discriminate H).
  unfold equation_value, ceq1; intros H.
  repeat match goal with H : EvalSpec.value _ _ _ _ _ _ |- _ => inversion H; subst; clear H end.
  cbn [lookup] in *.
  repeat match goal with H : (exists _, _) \/ (exists _, _) |- _ => destruct H as [(? & ? & ->)|(? & ? & ->)] | H : exists _, _ |- _ => destruct H as (? & ? & ->) end;
    repeat match goal with
    | H : nth_error cendog _ = Some "x" |- _ => apply I0 in H; subst
    | H : nth_error cstoch _ = Some "e" |- _ => apply I2 in H; subst
    | H : nth_error cendog _ = Some "e" |- _ => destruct (I1 _ H)
    | H : nth_error cstoch _ = Some "x" |- _ => destruct (I3 _ H)
    | H : o_bin q_ops _ _ _ = Ok _ |- _ => cbn [o_bin q_ops] in H; injection H as <-
    end; reflexivity.
Qed.
Lemma c_not_solved gy gu : gy 0 = z0 -> ~ solves_first Qc QO Qcle q_ops cendog cstoch [] cmodel [z0; z0] (V1 2 gy) (V1 2 gu).
Proof.
  intros Hy (L & g & [Ll Oc] & Ab & Pr & Rk & E1 & E2 & G).
  assert (At : forall i k, i < 2 -> at_k L i k = existsb (fun p => (fst p =? i) && (snd p =? k)%Z) csig).
  { intros i k Hi; apply Bool.eq_iff_eq_true; rewrite (Oc i k Hi), existsb_exists; split.
    - intros H; apply (proj1 cmodel_signature) in H; exists (i, k); split; [exact H|]; cbn [fst snd]; rewrite Nat.eqb_refl, Z.eqb_refl; reflexivity.
    - intros ([i' k'] & H & E); cbn [fst snd] in E; apply andb_true_iff in E as [Ea Eb]; apply Nat.eqb_eq in Ea; apply Z.eqb_eq in Eb; subst; apply (proj1 cmodel_signature), H. }
  destruct Ab as (A1 & A2 & A3 & A4); unfold members_of in A2, A3, A4; rewrite Ll in A1, A2, A3, A4; cbn [cendog List.length seq filter] in A1, A2, A3, A4.
  unfold static, pure_backward, IndexingSpec.mixed, pure_forward, backward in A2, A3, A4; 
  pose proof (At 0 (-1)%Z ltac:(lia)) as B1; pose proof (At 0 1%Z ltac:(lia)) as B2; pose proof (At 1 (-1)%Z ltac:(lia)) as B3; pose proof (At 1 1%Z ltac:(lia)) as B4.
  cbn in B1, B2, B3, B4; rewrite ?B1, ?B2, ?B3, ?B4 in A2; rewrite ?B1, ?B2, ?B3, ?B4 in A3; rewrite ?B1, ?B2, ?B3, ?B4 in A4; cbn in A2, A3, A4.
  rewrite A1, A4 in E1; cbn in E1; assert (Y0 : ry g 0 0 = z0) by (injection E1 as E1; rewrite <- Hy, E1; reflexivity).
  set (now := fun (t : Qc) (i : nat) => radd QO (SimSpec.Sum Qc QO (rs g) (fun j => rmul QO (ry g i j) (rmul QO t z1))) (SimSpec.Sum Qc QO (rk g) (fun l => rmul QO (ru g i l) (rmul QO t z0)))).
  set (next := fun (s : nat) (t : Qc) (i : nat) => radd QO (SimSpec.Sum Qc QO (rs g) (fun j => rmul QO (ry g i j) (now t (state_at g j)))) (SimSpec.Sum Qc QO (rk g) (fun l => rmul QO (ru g i l) (rmul QO t z0)))).
  assert (Va : forall i, i < rn g -> var_at g i = i) by (rewrite A1; unfold var_at; rewrite A2; intros [|[|i]] Hi; try lia; reflexivity).
  assert (C : AccuracySpec.centred Qc QO (List.length cstoch) 1 (fun _ => z1) (fun _ _ => z0)).
  { split; [apply Qc_is_canon; vm_compute; reflexivity|]; intros l Hl; apply Qc_is_canon; vm_compute; reflexivity. }
  specialize (G 1 (fun _ => z1) (fun _ _ => z0) (fun _ => z1) (fun _ => z0) now next C); cbn zeta in G.
  apply Forall_inv in G; [|intros t i Hi; rewrite (Va i Hi); reflexivity|intros s t _ i Hi; rewrite (Va i Hi); reflexivity].
  destruct G as (r & Hr & s & Vs & N); specialize (Hr 0 ltac:(lia)).
  apply half_not_small; exists s; split; [exact Vs|].
  pose proof (near_and Qc QO Qcinv Q_field Qcle Q_ordered _ _ Hr N) as M; revert M; apply near_mono; intros t [V E]; rewrite <- E.
  apply ceq1_value in V; cbn [SimSpec.Sum radd rmul QO]; rewrite V; unfold level, now; rewrite A4, Rk; cbn [cstoch List.length SimSpec.Sum nth radd rmul QO r0]; rewrite Y0; unfold z0, z1; ring.
Qed.

(** The simulator's part, with its data. *)
Definition cdata (m : mstate Qc (space_of Qc) (rules Qc)) : bool :=
  match ModelState.simulate Qc q_ops z0 (fun _ => true) (space_of Qc) (rules Qc) c_space c_solver 1 m with
  | (m1, Ok (Pipeline.First (V1 2 gy) (V1 2 gu), _)) =>
      let x := c_index _ _ (derived _ _ _ m1) in
      match read Qc q_ops z0 (fun _ => true) (space_of Qc) (rules Qc) c_space RSigma m1 with
      | (m2, Ok (VSigma sg)) =>
          let d := definition _ _ _ m2 in let c := derived _ _ _ m2 in
          match ss_values Qc QO q_ops z0 c_minimize (map ev_init (d_endog Qc d)) (c_steady _ _ c) (c_dynamic _ _ c), dr_order x, Indexing.members is_state (dr x), map sv_name (d_stoch Qc d) with
          | Ok [a; b], [0; 1], [0], [nm] => String.eqb nm "e" && same a z0 && same b z0 && same (gy 0) z0 && same (gy 1) z0 && same (gu 0) z1 && same (gu 1) z0 && same (sg 0 0) z1
          | _, _, _, _ => false
          end
      | _ => false
      end
  | _ => false
  end.
Lemma cdata_is m : cdata m = true -> exists gy gu sg, gy 0 = z0 /\ gy 1 = z0 /\ gu 0 = z1 /\ gu 1 = z0 /\ sg 0 0 = z1 /\
  forall given periods noise init, snd (c_simulate 1 given periods noise init m) =
    Sim.simulate Qc QO q_chol (SModel [z0; z0] [0; 1] [0] ["e"] sg) (Sim.First (V1 2 gy) (V1 2 gu)) given periods noise init.
Proof.
  unfold cdata, c_simulate, whole_simulate; change (r0 QO) with z0.
  destruct (ModelState.simulate _ _ _ _ _ _ _ _ _ _) as [m1 [[s sp]|]]; [|discriminate].
  destruct s as [gy gu|]; [|discriminate]; destruct gy as [|ny gy|]; try discriminate; destruct gu as [|nu gu|]; try (destruct ny as [|[|[|]]]; discriminate); cbn [as_sim].
  destruct ny as [|[|[|]]]; try discriminate; destruct nu as [|[|[|]]]; try discriminate.
  destruct (read _ _ _ _ _ _ _ _ _) as [m2 [[| | | |sg]|]]; try discriminate; cbn zeta.
  destruct (ss_values _ _ _ _ _ _ _ _) as [[|a [|b [|? ?]]]|]; try discriminate.
  destruct (dr_order _) as [|[|?] [|[|[|?]] [|? ?]]]; try discriminate.
  destruct (Indexing.members _ _) as [|[|?] [|? ?]]; try discriminate.
  destruct (map sv_name _) as [|n0 [|? ?]]; try discriminate; intros H.
  repeat (apply andb_true_iff in H as [H ?]); apply String.eqb_eq in H; repeat match goal with G : same _ _ = true |- _ => apply same_eq in G end; subst.
  exists gy, gu, sg; repeat (split; [assumption|]); reflexivity.
Qed.

(** The paths start at x = h and x is zero from then on: by the first equation it is h/2. *)
Lemma c_paths_do_not_solve m R : cdata m = true ->
  ~ paths_solve Qc QO Qcle q_ops cendog cstoch [] cmodel [z0; z0] R (fun shocks init => snd (c_simulate 1 (Some shocks) 0 (fun _ _ => z0) (Some init) m)).
Proof.
  intros H PS; apply cdata_is in H as (gy & gu & sg & Y0 & Y1 & U0 & U1 & Sg & H).
  assert (C : AccuracySpec.centred Qc QO (List.length cstoch) 1 (fun _ => z1) (fun _ _ => z0)).
  { split; [apply Qc_is_canon; vm_compute; reflexivity|]; intros l Hl; apply Qc_is_canon; vm_compute; reflexivity. }
  destruct (PS 3 0 (fun _ _ => z0) (fun _ => z1) 1 (fun _ => z1) (fun _ _ => z0) ltac:(lia) C) as (path & Hp & _ & _ & G).
  apply Forall_inv in G; destruct G as (gap & Hg & s & Vs & N); specialize (Hg 0 ltac:(lia)).
  apply half_not_small; exists s; split; [exact Vs|].
  pose proof (near_and Qc QO Qcinv Q_field Qcle Q_ordered _ _ Hg N) as M; revert M; apply near_mono; intros t [V E]; rewrite <- E.
  apply ceq1_value in V; cbn [SimSpec.Sum radd rmul QO]; rewrite V; specialize (Hp 0 t); rewrite H in Hp.
  assert (Hc : q_chol 1 sg = Ok (fun i j => if i =? j then z1 else z0)) by (unfold q_chol; cbn [seq forallb Nat.eqb]; rewrite Sg; reflexivity).
  cbv -[Qcplus Qcmult Qcopp z0 z1 q_chol] in Hp; rewrite Hc in Hp; cbv -[Qcplus Qcmult Qcopp z0 z1] in Hp; injection Hp as Hp; rewrite <- Hp.
  cbn [value nth r0 r1 radd rmul QO SimSpec.Sum cstoch List.length SimSpec.value]; unfold SimSpec.value; cbn [nth]; rewrite Y0, U0; change {| this := 0; canon := Qred_involutive 0 |} with (Q2Qc 0); unfold z0, z1; ring.
Qed.

Definition crules (s : rules Qc) : bool := match s with Pipeline.First (V1 2 gy) (V1 2 gu) => same (gy 0) z0 | _ => false end.
Lemma crules_is s : crules s = true -> exists gy gu, s = Pipeline.First (V1 2 gy) (V1 2 gu) /\ gy 0 = z0.
Proof.
  destruct s as [[|ny gy|] gu|]; try discriminate; destruct ny as [|[|[|]]]; try discriminate; destruct gu as [|nu gu|]; try discriminate; destruct nu as [|[|[|]]]; try discriminate.
  cbn [crules]; intros H; apply same_eq in H; exists gy, gu; split; [reflexivity|exact H].
Qed.
Definition q_promises : Prop :=
  is_field QO Qcinv /\ is_ordered QO Qcle /\ (forall x y, qlt x y = false <-> Qcle y x) /\ (forall x y, same x y = true <-> x = y) /\
  interprets Qc QO Qcle q_ops no_function squares /\ (forall v, o_isnone q_ops v = true -> v = o_none q_ops).
Lemma q_promises_kept : q_promises.
Proof. split; [exact Q_field|]; split; [exact Q_ordered|]; split; [exact qlt_le|]; split; [exact same_iff|]; split; [exact q_interprets|intros v H; discriminate H]. Qed.

(** The claim of C92 without the condition on the names fails: the file is read, the model is
    made and solved, its equations have a steady state and are smooth, but the rule that is
    returned does not solve them. *)
Theorem C92_refuted : q_promises /\
  qr_routine Qc QO c_qr /\ schur_routine Qc QO Qcle c_qz /\ inverse_routine Qc QO c_inv /\ linear_routine Qc QO qsolve /\
  (forall s m x0 y, c_minimize s (least_squares Qc QO q_ops m) x0 = Ok y -> least Qc Qcle (List.length x0) (least_squares Qc QO q_ops m) y) /\
  exists f out m m' gy gu sp, parse_file Qc q_decimal q_trunc z0 (chars ctext) = Ok f /\
    Factory.read_model Qc q_ops (q 2 1) q_decimal q_trunc z0 (chars ctext) = Ok out /\ c_new (outline_args Qc out) = Ok m /\
    c_step (Solve 1) m = (m', Ok (OSolution (Pipeline.First gy gu))) /\ c_step (Read RSpace) m = (m, Ok (OValue (VSpace sp))) /\
    OutlineSpec.named Qc "var" f = cendog /\ OutlineSpec.named Qc "varexo" f = cstoch /\ equations Qc f = cmodel /\
    model_scope Qc (definition _ _ _ m) = [] /\
    is_steady Qc QO q_ops cendog cstoch cmodel [] (sp_ss sp) /\
    solvable Qc QO q_ops qgrad qjacobian Qcle no_function squares cendog cstoch [] cmodel sp /\
    ~ solves_first Qc QO Qcle q_ops cendog cstoch [] cmodel (sp_ss sp) gy gu.
Proof.
  split; [exact q_promises_kept|]; destruct c_routines as (R1 & R2 & R3 & R4 & R5); do 5 (split; [assumption|]).
  assert (E : match cfile, Factory.read_model Qc q_ops (q 2 1) q_decimal q_trunc z0 (chars ctext) with
    | Ok f, Ok out => (OutlineSpec.named Qc "var" f = cendog /\ OutlineSpec.named Qc "varexo" f = cstoch /\ equations Qc f = cmodel) /\
        match c_new (outline_args Qc out) with Ok m =>
        match snd (c_step (Solve 1) m) with Ok (OSolution s) => crules s && cshow (ModelState.c_space _ _ (derived _ _ _ m)) = true /\ altered _ _ _ m = false /\ model_scope Qc (definition _ _ _ m) = [] | _ => False end | _ => False end
    | _, _ => False end) by (vm_compute; repeat split; reflexivity).
  destruct cfile as [f|] eqn:Ef; [|contradiction]; destruct (Factory.read_model _ _ _ _ _ _ _) as [out|] eqn:Eo; [|contradiction].
  destruct E as [(E1 & E2 & E3) E]; destruct (c_new _) as [m|] eqn:Em; [|contradiction]; destruct (c_step (Solve 1) m) as [m' [[| |s|]|]] eqn:Es; cbn [snd] in E; try contradiction.
  destruct E as (E & Al & Sc); apply andb_true_iff in E as [Er Ec]; apply crules_is in Er as (gy & gu & -> & Y0); apply cshow_is in Ec as [Ess Sv].
  exists f, out, m, m', (V1 2 gy), (V1 2 gu), (ModelState.c_space _ _ (derived _ _ _ m)).
  split; [exact Ef|]; split; [reflexivity|]; split; [exact Em|]; split; [exact Es|].
  split; [unfold c_step, ModelState.step, ok_with, read, ensure; rewrite Al; reflexivity|].
  do 4 (split; [assumption|]); rewrite Ess; split; [exact cmodel_steady|]; split; [exact Sv|apply c_not_solved, Y0].
Qed.
Print Assumptions C92_refuted.

(** So does the claim of C93. *)
Theorem C93_refuted : q_promises /\
  qr_routine Qc QO c_qr /\ schur_routine Qc QO Qcle c_qz /\ inverse_routine Qc QO c_inv /\ linear_routine Qc QO qsolve /\
  (forall s m x0 y, c_minimize s (least_squares Qc QO q_ops m) x0 = Ok y -> least Qc Qcle (List.length x0) (least_squares Qc QO q_ops m) y) /\
  exists f out m sp p0, parse_file Qc q_decimal q_trunc z0 (chars ctext) = Ok f /\
    Factory.read_model Qc q_ops (q 2 1) q_decimal q_trunc z0 (chars ctext) = Ok out /\ c_new (outline_args Qc out) = Ok m /\
    snd (c_simulate 1 None 3 (fun _ _ => z1) None m) = Ok p0 /\ c_step (Read RSpace) m = (m, Ok (OValue (VSpace sp))) /\
    OutlineSpec.named Qc "var" f = cendog /\ OutlineSpec.named Qc "varexo" f = cstoch /\ equations Qc f = cmodel /\
    model_scope Qc (definition _ _ _ m) = [] /\
    is_steady Qc QO q_ops cendog cstoch cmodel [] (sp_ss sp) /\
    solvable Qc QO q_ops qgrad qjacobian Qcle no_function squares cendog cstoch [] cmodel sp /\
    forall R, ~ paths_solve Qc QO Qcle q_ops cendog cstoch [] cmodel (sp_ss sp) R (fun shocks init => snd (c_simulate 1 (Some shocks) 0 (fun _ _ => z0) (Some init) m)).
Proof.
  split; [exact q_promises_kept|]; destruct c_routines as (R1 & R2 & R3 & R4 & R5); do 5 (split; [assumption|]).
  assert (E : match cfile, Factory.read_model Qc q_ops (q 2 1) q_decimal q_trunc z0 (chars ctext) with
    | Ok f, Ok out => (OutlineSpec.named Qc "var" f = cendog /\ OutlineSpec.named Qc "varexo" f = cstoch /\ equations Qc f = cmodel) /\
        match c_new (outline_args Qc out) with Ok m =>
        match snd (c_simulate 1 None 3 (fun _ _ => z1) None m) with Ok _ => cdata m && cshow (ModelState.c_space _ _ (derived _ _ _ m)) = true /\ altered _ _ _ m = false /\ model_scope Qc (definition _ _ _ m) = [] | _ => False end | _ => False end
    | _, _ => False end) by (vm_compute; repeat split; reflexivity).
  destruct cfile as [f|] eqn:Ef; [|contradiction]; destruct (Factory.read_model _ _ _ _ _ _ _) as [out|] eqn:Eo; [|contradiction].
  destruct E as [(E1 & E2 & E3) E]; destruct (c_new _) as [m|] eqn:Em; [|contradiction]; destruct (snd (c_simulate _ _ _ _ _ m)) as [p0|] eqn:Es; [|contradiction].
  destruct E as (E & Al & Sc); apply andb_true_iff in E as [Er Ec]; apply cshow_is in Ec as [Ess Sv].
  exists f, out, m, (ModelState.c_space _ _ (derived _ _ _ m)), p0.
  split; [exact Ef|]; split; [reflexivity|]; split; [exact Em|]; split; [exact Es|].
  split; [unfold c_step, ModelState.step, ok_with, read, ensure; rewrite Al; reflexivity|].
  do 4 (split; [assumption|]); rewrite Ess; split; [exact cmodel_steady|]; split; [exact Sv|intros R; apply c_paths_do_not_solve, Er].
Qed.
Print Assumptions C93_refuted.
