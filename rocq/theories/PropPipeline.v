(** From a model file to a solution of its equations: property C92. *)
From Verif Require Import Base Syntax Lexer Parser Eval EvalSpec Semantics Factory FactorySpec Calib CalibSpec CalibProofs Indexing IndexingSpec DynFunc DynSpec Vars ExprList
  ModelState ModelStateSpec ModelStateProofs ModelStateProofs2 PropModel OutlineSpec PropDyn
  Nd NdInst Mat NdProofs SimSpec OrderProofs CalcSpec CalcProofs CalcProofs2 CalcProofs3 Linearize LinearizeSpec LinearizeProofs Steady SteadyValues SteadyValuesSpec PropSteadyValues
  FirstOrder FirstOrderSpec PropFirst Sylvester SylvesterSpec SecondOrder SecondOrderSpec PropSecond AccuracySpec PropAccuracy FirstOrderExample Gauss SylvesterExample LinearExample
  Pipeline PipelineSpec PipelineProofs.
From Coq Require Import ZArith QArith Qcanon.
Local Open Scope string_scope.
Local Open Scope list_scope.
Local Open Scope nat_scope.

Section C92.
  Notation named := OutlineSpec.named.
  Variable F : Type.
  Variable O : rops F.
  Variable P : ops F.
  Variable ltb eqb : F -> F -> bool.
  Variable nan : F.
  Variable minimize : solver -> (list F -> res F) -> list F -> res (list F).
  Variable grad : (list F -> res F) -> list F -> res (list F).
  Variable jacobian : (list F -> res (list F)) -> list F -> res (list (list F)).
  Variable qr : nat -> nat -> mat F -> res (mat F * mat F).
  Variable rank : nat -> nat -> mat F -> nat.
  Variable ordqz : nat -> mat F -> mat F -> res (schur F).
  Variable inv : nat -> mat F -> res (mat F).
  Variable qz : nat -> mat F -> mat F -> res (mat F * mat F * mat F * mat F).
  Variable solve : nat -> nat -> mat F -> mat F -> res (mat F).
  Variable two : F.
  Variable truthy isnum : F -> bool.
  Variable float_of : text -> option F.
  Variable trunc : F -> option Z.
  Variable nzero : F.
  Variable parse_text : text -> res (ast F).
  Variable keeps : bool.

  (** The model with its numerical parts. *)
  Notation space := (whole_space F O P ltb nan minimize grad qr rank ordqz).
  Notation solver_ := (whole_solver F O P eqb nan minimize grad jacobian inv qz solve).
  Notation read_model := (Factory.read_model F P two float_of trunc nzero).
  Notation new_model := (ModelState.new_model F P (r0 O) (r1 O) truthy float_of trunc parse_text (space_of F) (rules F) space).
  Notation step := (ModelState.step F P (r0 O) (r1 O) truthy isnum float_of trunc parse_text keeps (space_of F) (rules F) space solver_).
  Notation run := (ModelState.run F P (r0 O) (r1 O) truthy isnum float_of trunc parse_text keeps (space_of F) (rules F) space solver_).
  Notation definition := (ModelState.definition F (space_of F) (rules F)).
  Notation derived := (ModelState.derived F (space_of F) (rules F)).

  (** What the routines promise, in exact arithmetic. *)
  Variable finv : F -> F.
  Variable le : F -> F -> Prop.
  Variable fns : string -> smooth_fun F.
  Variable pows : F -> smooth_fun F.
  Hypothesis FT : is_field O finv.
  Hypothesis OR : is_ordered O le.
  Hypothesis Hl : forall x y, ltb x y = false <-> le y x.
  Hypothesis Heq : forall x y, eqb x y = true <-> x = y.
  Hypothesis HI : interprets F O le P fns pows.
  Hypothesis Hn : forall v, o_isnone P v = true -> v = o_none P.
  Hypothesis Hqr : qr_routine F O qr.
  Hypothesis Hqz : schur_routine F O le ordqz.
  Hypothesis Hinv : inverse_routine F O inv.
  Hypothesis Hs : linear_routine F O solve.
  Hypothesis Hrs : real_schur_routine F O qz.
  Hypothesis He : fails_when_singular F O solve.
  Hypothesis Hu : refuses_singular F O solve.
  (** The optimiser finds the least value of a sum of squares. *)
  Hypothesis Hm : forall s m x0 y, minimize s (least_squares F O P m) x0 = Ok y -> least F le (List.length x0) (least_squares F O P m) y.

  (** When a solution is one for the equations: the model has a steady state, the equations are
      smooth at the one that is found, and autograd differentiates them; and a root is beyond
      one, or the last one is real. *)
  Definition solvable (endog stoch : list string) (params : list (string * F)) (exprs : list (ast F)) (sp : space_of F) : Prop :=
    (forall l, signature F endog exprs l -> differentiates F O le P endog stoch exprs params grad jacobian l) /\
    (exists y, is_steady F O P endog stoch exprs params y) /\
    smooth_at F O endog stoch exprs params fns pows (sp_ss sp) /\
    ((exists e, In e (eigen (sp_state sp)) /\ beyond_one F O le e) \/ not_complex F O (last (eigen (sp_state sp)) Nan)).

  Lemma endog_length d : List.length (map ev_init (d_endog F d)) = List.length (map ev_name (d_endog F d)).
  Proof. rewrite !map_length; reflexivity. Qed.

  (** What a solution [s] of the order [o], computed by a new model [m], is for the equations. *)
  Definition solution_for (m : mstate F (space_of F) (rules F)) (o : nat) (s : rules F)
      (endog stoch : list string) (params : list (string * F)) (exprs : list (ast F)) (fits : Prop) : Prop :=
    exists sp, step (Read RSpace) m = (m, Ok (OValue (VSpace sp))) /\
      ((o = 1 /\ exists gy gu, s = First gy gu /\
         (fits -> solvable endog stoch params exprs sp ->
          is_steady F O P endog stoch exprs params (sp_ss sp) /\ solves_first F O le P endog stoch params exprs (sp_ss sp) gy gu)) \/
       ((o = 0 \/ o = 2) /\ exists sigma gy gu xx xu uu dl, s = Second gy gu xx xu uu dl /\
         snd (step (Read RSigma) m) = Ok (OValue (VSigma sigma)) /\
         (fits -> solvable endog stoch params exprs sp ->
          is_steady F O P endog stoch exprs params (sp_ss sp) /\ solves_second F O le P endog stoch params exprs (sp_ss sp) sigma gy gu xx xu uu dl))).

  Lemma model_solves d a m o m' s : describes F (r1 O) d a -> distinct F d -> new_model a = Ok m -> step (Solve o) m = (m', Ok (OSolution s)) ->
    let D := definition m in
    let ns := map ev_name (d_endog F D) in let sv := map sv_name (d_stoch F D) in
    let sc := model_scope F D in let es := trees (d_exprs F D) in
    solution_for m o s ns sv sc es (readable ns sv es sc /\ List.length es = List.length ns).
  Proof.
    intros De Di Hnew Hst.
    destruct (new_model_known F P (r0 O) (r1 O) truthy isnum float_of trunc parse_text _ _ space d _ m De Di Hnew) as (K & Al & _ & K1 & K2 & [Fr Sg] & _).
    assert (C : current F P (r0 O) isnum _ _ space m) by (right; split; [exact K1|split; [exact K2|split; [exact Fr|exact Sg]]]).
    unfold ModelState.step at 1, ok_with in Hst.
    destruct (ModelState.solve F P (r0 O) isnum _ _ space solver_ o m) as [m3 [w|e]] eqn:E; cbn [fst snd bind] in Hst; [|discriminate].
    injection Hst as <- ->.
    pose proof (proj1 (solve_ok F P (r0 O) truthy isnum float_of trunc parse_text _ _ space solver_ _ _ _ _ E) d K) as K'.
    destruct (solve_current F P (r0 O) truthy isnum float_of trunc parse_text _ _ space solver_ _ _ _ _ C E) as (_ & x & st & dy & sp & Fr' & So).
    pose proof (tracks_fresh F P (r0 O) truthy float_of trunc parse_text _ space d _ _ _ _ _ _ K' K Fr') as Fr2.
    destruct (fresh_fun F _ space _ _ _ _ _ _ _ _ _ _ _ _ _ Fr Fr2) as (E1 & E2 & E3 & E4).
    rewrite (tracks_inits F P (r0 O) truthy float_of trunc parse_text d _ K'), <- (tracks_inits F P (r0 O) truthy float_of trunc parse_text d _ K) in So.
    rewrite (tracks_stoch F P (r0 O) truthy float_of trunc parse_text d _ _ K K') in So.
    subst x st dy sp; cbn zeta; unfold fresh_of in Fr.
    exists (c_space _ _ (derived m)); split; [unfold ModelState.step, ok_with, read, ensure; rewrite Al; reflexivity|].
    assert (St : readable (map ev_name (d_endog F (definition m))) (map sv_name (d_stoch F (definition m))) (trees (d_exprs F (definition m))) (model_scope F (definition m)) ->
      (exists y, is_steady F O P (map ev_name (d_endog F (definition m))) (map sv_name (d_stoch F (definition m))) (trees (d_exprs F (definition m))) (model_scope F (definition m)) y) ->
      is_steady F O P (map ev_name (d_endog F (definition m))) (map sv_name (d_stoch F (definition m))) (trees (d_exprs F (definition m))) (model_scope F (definition m)) (sp_ss (c_space _ _ (derived m)))).
    { intros Rd Ex; eapply (steady_found F O P ltb eqb nan minimize grad qr rank ordqz finv le FT OR Heq Hm); [exact Fr|apply endog_length|exact Rd|exact Ex]. }
    destruct So as [[-> So]|[Ho (s1 & sg & So & Esg & So2)]]; [left|right].
    - split; [reflexivity|].
      destruct (first_solves F O P ltb eqb nan minimize grad jacobian qr rank ordqz inv qz solve finv le fns pows FT OR Hl HI Hqr Hqz Hinv Hs _ _ _ _ _ _ _ _ _ _ Fr So) as (gy & gu & Eq & Sol).
      exists gy, gu; split; [exact Eq|]; intros [Rd Sq] (Hd & Hex & Sm & Rt); specialize (St Rd Hex); split; [exact St|]; apply Sol; assumption.
    - split; [exact Ho|].
      destruct (second_solves F O P ltb eqb nan minimize grad jacobian qr rank ordqz inv qz solve finv le fns pows FT OR Hl Heq HI Hqr Hqz Hinv Hs Hrs He Hu _ _ _ _ _ _ _ _ _ _ _ _ Fr (sigma_even F (r0 O) P isnum _ _ Esg) So So2)
        as (gy & gu & xx & xu & uu & dl & Eq & Sol).
      exists sg, gy, gu, xx, xu, uu, dl; split; [exact Eq|]; split.
      + destruct (update_total F P (r0 O) isnum _ _ space m _ _ _ _ sg K1 K2 Fr Esg) as (d' & U).
        unfold ModelState.step, ok_with, read, ensure.
        destruct (c_sigma F (space_of F) (derived m)) as [sg'|] eqn:Es.
        * unfold no_sigma; rewrite Al, Es; cbn [orb fst snd cached bind]; rewrite Es; cbn [bind].
          specialize (Sg sg' eq_refl); rewrite Esg in Sg; injection Sg as <-; reflexivity.
        * unfold no_sigma; rewrite Es, orb_true_r, U; reflexivity.
      + intros [Rd Sq] (Hd & Hex & Sm & Rt); specialize (St Rd Hex); split; [exact St|]; apply Sol; assumption.
  Qed.

  (** Full statement: when a model file is read, the model is made and [solve] returns, then
      the rule it returns solves the equations of the file, for the parameter values that the
      file assigns, to the order asked for around a steady state of the equations.  Proved for
      files that are [plain_file] (PipelineSpec.v; C28 and C29 say what happens to others) and
      models that are [solvable]. *)
  Theorem C92_file_partial :
    forall (t : text) (out : outline F) (m m' : mstate F (space_of F) (rules F)) (o : nat) (s : rules F),
    read_model t = Ok out -> new_model (outline_args F out) = Ok m -> step (Solve o) m = (m', Ok (OSolution s)) ->
    let params := model_scope F (definition m) in
    exists f, parse_file F float_of trunc nzero t = Ok f /\ values_of F P f params /\
      solution_for m o s (named F "var" f) (named F "varexo" f) params (equations F f) (plain_file F f).
  Proof.
    intros t out m m' o s Ho Hnew Hst params; subst params.
    destruct (file_model F P two (r0 O) (r1 O) truthy float_of trunc nzero parse_text _ _ space Hn t out m Ho Hnew) as (f & Hf & Hv & E1 & E2 & E3 & E4).
    destruct (file_defined F P two (r1 O) float_of trunc nzero Hn t out Ho) as (f' & d & Hf' & _ & _ & D & Di & _).
    pose proof (model_solves d _ m o m' s D Di Hnew Hst) as S; cbn zeta in S; rewrite E1, E2, E3 in S.
    exists f; split; [exact Hf|]; split; [exact E4|].
    assert (Rd : plain_file F f -> readable (named F "var" f) (named F "varexo" f) (equations F f) (model_scope F (definition m)) /\ List.length (equations F f) = List.length (named F "var" f)).
    { intros Pf; split; [|apply Pf]; apply (file_readable F float_of trunc nzero t f _ Hf Hv Pf); destruct E4 as (? & ? & _ & _ & _ & _ & E); exact E. }
    destruct S as (sp & Rs & [(Eo & gy & gu & Eq & S)|(Eo & sg & gy & gu & xx & xu & uu & dl & Eq & Rg & S)]); exists sp; split; [exact Rs|left|exact Rs|right].
    - split; [exact Eo|]; exists gy, gu; split; [exact Eq|]; intros Pf; apply S, Rd, Pf.
    - split; [exact Eo|]; exists sg, gy, gu, xx, xu, uu, dl; split; [exact Eq|]; split; [exact Rg|]; intros Pf; apply S, Rd, Pf.
  Qed.

  (** The same after any history of additions, readings, solutions and simulations: the
      solution is one of the equations then in force (those of the definitions [effects os d]), for
      the values of the parameters then in force. *)
  Lemma effects_params os : forall d, NoDup (keys (m_params F d)) -> NoDup (keys (m_locals F d)) ->
    NoDup (keys (m_params F (effects F (r1 O) os d))) /\ NoDup (keys (m_locals F (effects F (r1 O) os d))).
  Proof.
    unfold effects; induction os as [|o os IH]; intros d N1 N2; [split; assumption|]; cbn [fold_left]; apply IH.
    - destruct o; cbn [effect m_params]; try exact N1.
      revert N1; generalize (m_params F d); induction ps as [|p ps IHp]; intros q N; cbn [fold_left]; [exact N|]; apply IHp, NoDup_keys_update, N.
    - destruct o; exact N2.
  Qed.
  Theorem C92_history_partial :
    forall (d : mdef F) (a : args F) (m0 : mstate F (space_of F) (rules F)) (os : list (op F)) (m m' : mstate F (space_of F) (rules F)) l (o : nat) (s : rules F),
    describes F (r1 O) d a -> NoDup (keys (m_params F d)) -> NoDup (keys (m_locals F d)) ->
    new_model a = Ok m0 -> run os m0 = (m, l) -> additions_made F _ _ l -> repaired F _ _ l -> distinct F (effects F (r1 O) os d) ->
    step (Solve o) m = (m', Ok (OSolution s)) ->
    let D := effects F (r1 O) os d in
    let ns := map fst (m_endog F D) in let sv := map fst (m_stoch F D) in
    forall a', describes F (r1 O) D a' -> exists m1 es pv lv, new_model a' = Ok m1 /\
      mapM (parse_given F parse_text) (m_exprs F D) = Ok es /\
      satisfies F P float_of trunc pv (m_params F D) /\ satisfies F P float_of trunc lv (m_locals F D) /\
      let sc := merge F pv lv in
      solution_for m1 o s ns sv sc es (readable ns sv es sc /\ List.length es = List.length ns).
  Proof.
    intros d a m0 os m m' l o s De N1 N2 Hnew Hr Ha Hrp Di Hst D ns sv a' De'.
    destruct (C31_solve_is_current_partial F P (r0 O) (r1 O) truthy isnum float_of trunc parse_text keeps _ _ space solver_ d a m0 os m l o m' s De Hnew Hr Ha Hrp Di Hst a' De')
      as (m1 & m2 & Hm1 & Hs1).
    pose proof (model_solves D a' m1 o m2 s De' Di Hm1 Hs1) as S; cbn zeta in S.
    destruct (new_model_known F P (r0 O) (r1 O) truthy isnum float_of trunc parse_text _ _ space D _ m1 De' Di Hm1) as (K & _).
    destruct (effects_params os d N1 N2) as [N1' N2'].
    pose proof (tracks_names F P (r0 O) truthy float_of trunc parse_text D _ K) as E1.
    destruct K as (_ & K2 & _ & (pv & P1 & P2) & (lv & L1 & L2) & K6).
    assert (E2 : map sv_name (d_stoch F (definition m1)) = sv).
    { unfold sv; clear - K2; apply mapM_ok in K2; induction K2 as [|p v l l' Hv _ IH]; cbn [map]; [reflexivity|rewrite IH; f_equal].
      destruct p as [x [|[] []]]; cbn in Hv; try discriminate; injection Hv as <-; reflexivity. }
    rewrite E1, E2 in S; unfold model_scope in S; rewrite P1, L1 in S; cbn [solved] in S.
    exists m1, (trees (d_exprs F (definition m1))), pv, lv; split; [exact Hm1|]; split; [exact K6|].
    split; [apply (solve_satisfies F P float_of trunc _ _ N1' P2)|]; split; [apply (solve_satisfies F P float_of trunc _ _ N2' L2)|exact S].
  Qed.
End C92.
Print Assumptions C92_file_partial.
Print Assumptions C92_history_partial.

(** ** A concrete file *)
Definition q_decimal (t : text) : option Qc :=
  lookup (string_of_list_ascii t) [("0.5", q 1 2); ("1", z1); ("1.5", q 3 2); ("2", q 2 1); ("2.75", q 11 4)].
Definition q_trunc (v : Qc) : option Z := Some (Z.quot (Qnum (this v)) (Zpos (Qden (this v)))).
Definition q_true (v : Qc) : bool := negb (same v z0).
Definition q_text (t : text) : res (ast Qc) := Err GenericErr.
(** Tries two points. *)
Definition q_try (g : list Qc -> res Qc) (x : list Qc) : bool := match g x with Ok v => same v z0 | Err _ => false end.
Definition q_minimize (_ : solver) (g : list Qc -> res Qc) (x0 : list Qc) : res (list Qc) :=
  if negb (List.length x0 =? 3) then Err ValueErr else
  if q_try g lss then Ok lss else if q_try g [z0; z0; q 2 1] then Ok [z0; z0; q 2 1] else Err ValueErr.
Lemma q_minimize_ok s m x0 y : q_minimize s (least_squares Qc QO q_ops m) x0 = Ok y -> least Qc Qcle (List.length x0) (least_squares Qc QO q_ops m) y.
Proof.
  unfold q_minimize; destruct (List.length x0 =? 3) eqn:E; cbn [negb]; [|discriminate]; apply Nat.eqb_eq in E; rewrite E.
  assert (G : forall x, List.length x = 3 -> q_try (least_squares Qc QO q_ops m) x = true -> least Qc Qcle 3 (least_squares Qc QO q_ops m) x).
  { intros x Lx T; split; [exact Lx|]; unfold q_try in T; destruct (least_squares Qc QO q_ops m x) as [v|] eqn:Ev; [|discriminate T].
    apply same_eq in T; subst v; exists z0; split; [reflexivity|]; intros z v _ H; unfold least_squares in H.
    destruct (mapM _ _) as [r|]; [|discriminate H]; injection H as <-.
    apply (sum_nonneg Qc QO Qcinv Q_field Qcle Q_ordered); intros i _; apply (sq_nonneg Qc QO Qcinv Q_field Qcle Q_ordered). }
  destruct (q_try _ lss) eqn:E1; [intros H; injection H as <-; apply G; [reflexivity|exact E1]|].
  destruct (q_try _ [z0; z0; q 2 1]) eqn:E2; [intros H; injection H as <-; apply G; [reflexivity|exact E2]|discriminate].
Qed.

Definition q_space := whole_space Qc QO q_ops qlt z0 q_minimize qgrad xyz_qr rank_all xyz_qz.
Definition q_solver := whole_solver Qc QO q_ops same z0 q_minimize qgrad qjacobian xyz_inv xyz2_real qsolve.
Definition q_new := ModelState.new_model Qc q_ops (r0 QO) (r1 QO) q_true q_decimal q_trunc q_text (space_of Qc) (rules Qc) q_space.
Definition q_step := ModelState.step Qc q_ops (r0 QO) (r1 QO) q_true (fun _ => true) q_decimal q_trunc q_text false (space_of Qc) (rules Qc) q_space q_solver.
Definition q_run := ModelState.run Qc q_ops (r0 QO) (r1 QO) q_true (fun _ => true) q_decimal q_trunc q_text false (space_of Qc) (rules Qc) q_space q_solver.

Lemma q_hypotheses :
  is_field QO Qcinv /\ is_ordered QO Qcle /\ (forall x y, qlt x y = false <-> Qcle y x) /\ (forall x y, same x y = true <-> x = y) /\
  interprets Qc QO Qcle q_ops no_function squares /\ (forall v, o_isnone q_ops v = true -> v = o_none q_ops) /\
  qr_routine Qc QO xyz_qr /\ schur_routine Qc QO Qcle xyz_qz /\ inverse_routine Qc QO xyz_inv /\ linear_routine Qc QO qsolve /\
  real_schur_routine Qc QO xyz2_real /\ fails_when_singular Qc QO qsolve /\ refuses_singular Qc QO qsolve /\
  (forall s m x0 y, q_minimize s (least_squares Qc QO q_ops m) x0 = Ok y -> least Qc Qcle (List.length x0) (least_squares Qc QO q_ops m) y).
Proof.
  split; [exact Q_field|]; split; [exact Q_ordered|]; split; [exact qlt_le|]; split; [exact same_iff|]; split; [exact q_interprets|].
  split; [intros v H; discriminate H|].
  split; [apply qr_with_ok|]; split; [apply qz_with_ok|]; split; [apply inv_with_ok|]; split; [exact qsolve_ok|].
  split; [apply real_qz_with_ok|]; split; [exact qsolve_err|]; split; [exact qsolve_refuses|exact q_minimize_ok].
Qed.

(** The model of LinearExample.v as a file. *)
Definition ltext : string := "var x y z; varexo e f; parameters rho c; rho = 0.5; c = rho + 0.5;
 model; x = rho*x(-1) + e + x(-1)*(x(-1) + e); y(+1) + y(+1)^2 = 2.75*y - 1.5*y(-1) + f*(1 - x); z = x + y + (x*y + c); end;
 shocks; var e; stderr 1; var f = 1; var e, f = 0.5; end;".
Definition lshow (s : rules Qc) : bool :=
  match s with
  | Second _ _ xx _ _ dl => shown xx [[z1; q 3 16; q 3 16; q 81 368]; [z1; z0; z0; z0]; [z0; z0; z0; q 81 368]] && shown dl [[q 55 92]; [z0]; [q 55 92]]
  | _ => false end.
(** A root beyond one, and the steady state. *)
Definition lspace (sp : space_of Qc) : bool :=
  match eigen (sp_state sp) with [Fin a b; Fin c d; Fin e f] => same e (q 2 1) && same f z0 | _ => false end &&
  match sp_ss sp with [a; b; c] => same a z0 && same b z0 && same c z1 | _ => false end.
Lemma lspace_solvable sp : lspace sp = true -> solvable Qc QO q_ops qgrad qjacobian Qcle no_function squares lendog lstoch lparams lmodel sp.
Proof.
  intros H; unfold lspace in H; apply andb_true_iff in H as [H1 H2].
  destruct (sp_ss sp) as [|a [|b [|c [|? ?]]]] eqn:Es; try discriminate H2.
  do 2 (apply andb_true_iff in H2 as [H2 ?]); repeat match goal with X : same _ _ = true |- _ => apply same_eq in X; subst end.
  split; [exact lmodel_differentiates|]; split; [exists lss; split; [reflexivity|exact lmodel_steady]|]; rewrite Es.
  split; [apply lmodel_smooth; reflexivity|]; left.
  destruct (eigen (sp_state sp)) as [|[a' b'| |] [|[c' d| |] [|[e f| |] [|? ?]]]]; try discriminate H1; apply andb_true_iff in H1 as [X Y]; apply same_eq in X, Y; subst.
  eexists; split; [right; right; left; reflexivity|left; apply qlt_true; vm_compute; reflexivity].
Qed.
Definition lscope (sc : list (string * Qc)) : bool :=
  match sc with [(a, x); (b, y)] => String.eqb a "rho" && same x (q 1 2) && String.eqb b "c" && same y z1 | _ => false end.
Lemma lscope_is sc : lscope sc = true -> sc = lparams.
Proof.
  destruct sc as [|[a x] [|[b y] [|? ?]]]; try discriminate; cbn [lscope]; intros H; do 3 (apply andb_true_iff in H as [H ?]).
  apply String.eqb_eq in H, H1; apply same_eq in H2, H0; subst; reflexivity.
Qed.
Definition lfile : res (modfile Qc) := parse_file Qc q_decimal q_trunc z0 (chars ltext).
Lemma lfile_plain f : lfile = Ok f -> OutlineSpec.named Qc "var" f = lendog /\ OutlineSpec.named Qc "varexo" f = lstoch /\ equations Qc f = lmodel /\ plain_file Qc f.
Proof.
  assert (E : match lfile with Ok f => OutlineSpec.named Qc "var" f = lendog /\ OutlineSpec.named Qc "varexo" f = lstoch /\ equations Qc f = lmodel /\
     names_of Qc f = ["x"; "y"; "z"; "e"; "f"; "rho"; "c"] | Err _ => False end) by (vm_compute; repeat apply conj; reflexivity).
  intros H; rewrite H in E; destruct E as (E1 & E2 & E3 & E4); split; [exact E1|]; split; [exact E2|]; split; [exact E3|].
  constructor; rewrite ?E1, ?E3, ?E4.
  - intros x y Hx Hy; cbn [In] in Hx, Hy; repeat (destruct Hx as [<-|Hx]); try contradiction; repeat (destruct Hy as [<-|Hy]); try contradiction; split; discriminate.
  - intros x [<-|[<-|[<-|[]]]].
    + exists leq1; split; [left; reflexivity|left; apply O_binl; constructor].
    + exists leq3; split; [right; right; left; reflexivity|left; apply O_binr, O_binl, O_binr; constructor].
    + exists leq3; split; [right; right; left; reflexivity|left; apply O_binl; constructor].
  - intros e x He Ho; cbn [lmodel In] in He; destruct He as [<-|[<-|[<-|[]]]]; unfold leq1, leq2, leq3 in Ho; invert_tree; cbn; tauto.
  - intros e x k He Ho; cbn [lmodel In] in He; destruct He as [<-|[<-|[<-|[]]]]; unfold leq1, leq2, leq3 in Ho; invert_tree; cbn; tauto.
  - reflexivity.
Qed.
Example C92_nonvacuous : exists f out m s, lfile = Ok f /\ Factory.read_model Qc q_ops (q 2 1) q_decimal q_trunc z0 (chars ltext) = Ok out /\
  q_new (outline_args Qc out) = Ok m /\ snd (q_step (Solve 2) m) = Ok (OSolution s) /\ lshow s = true /\ plain_file Qc f /\
  model_scope Qc (definition _ _ _ m) = lparams /\
  solvable Qc QO q_ops qgrad qjacobian Qcle no_function squares (OutlineSpec.named Qc "var" f) (OutlineSpec.named Qc "varexo" f) lparams (equations Qc f) (c_space _ _ (derived _ _ _ m)) /\
  solution_for Qc QO q_ops qlt same z0 q_minimize qgrad qjacobian xyz_qr rank_all xyz_qz xyz_inv xyz2_real qsolve q_true (fun _ => true) q_decimal q_trunc q_text false Qcle no_function squares
    m 2 s lendog lstoch lparams lmodel (plain_file Qc f).
Proof.
  assert (E : match lfile, Factory.read_model Qc q_ops (q 2 1) q_decimal q_trunc z0 (chars ltext) with
    | Ok f, Ok out => match q_new (outline_args Qc out) with Ok m =>
        match snd (q_step (Solve 2) m) with Ok (OSolution s) => lshow s && lspace (c_space _ _ (derived _ _ _ m)) && lscope (model_scope Qc (definition _ _ _ m)) = true | _ => False end | _ => False end
    | _, _ => False end) by (vm_compute; reflexivity).
  destruct lfile as [f|] eqn:Ef; [|contradiction]; destruct (Factory.read_model _ _ _ _ _ _ _) as [out|] eqn:Eo; [|contradiction].
  destruct (q_new _) as [m|] eqn:Em; [|contradiction]; destruct (q_step (Solve 2) m) as [m' [[| |s|]|]] eqn:Es; cbn [snd] in E; try contradiction.
  apply andb_true_iff in E as [E Ep]; apply lscope_is in Ep; apply andb_true_iff in E as [E1 E2]; exists f, out, m, s; cbn [snd].
  destruct (lfile_plain f Ef) as (F1 & F2 & F3 & F4); pose proof (lspace_solvable _ E2) as E3.
  split; [reflexivity|]; split; [reflexivity|]; split; [exact Em|]; split; [rewrite Es; reflexivity|]; split; [exact E1|]; split; [exact F4|]; split; [exact Ep|].
  rewrite F1, F2, F3; split; [exact E3|].
  destruct q_hypotheses as (H1 & H2 & H3 & H4 & H5 & H6 & H7 & H8 & H9 & H10 & H11 & H12 & H13 & H14).
  destruct (C92_file_partial Qc QO q_ops qlt same z0 q_minimize qgrad qjacobian xyz_qr rank_all xyz_qz xyz_inv xyz2_real qsolve (q 2 1) q_true (fun _ => true) q_decimal q_trunc z0 q_text false
    Qcinv Qcle no_function squares H1 H2 H3 H4 H5 H6 H7 H8 H9 H10 H11 H12 H13 H14 (chars ltext) out m m' 2 s Eo Em Es) as (f' & Hf & Hv & S).
  assert (f' = f) by (unfold lfile in Ef; congruence); subst f'; rewrite Ep, F1, F2, F3 in S; exact S.
Qed.

(** A model made with c = 2 that is solved, and whose parameter c is then set to 1: in the
    end the file above. *)
Definition h_def : mdef Qc :=
  MDef _ [("x", (None, None, None)); ("y", (None, None, None)); ("z", (Some z1, None, None))]
    [("e", DStoch None (Some z1) None None); ("f", DStoch None (Some z1) None None)] []
    [("rho", DNum (q 1 2)); ("c", DNum (q 2 1))] [] (map GTree lmodel).
Definition h_args (c : Qc) : args Qc :=
  Args _ lendog lstoch [] (Plain [("rho", DNum (q 1 2)); ("c", DNum c)]) (Plain []) [] (FromList false (map GTree lmodel)) [("z", z1)] [] [].
Definition h_ops : list (op Qc) := [Solve 1; Read RIndexes; AddParams [("c", DNum z1)]; ReadSolution].
Lemma h_describes c : describes Qc (r1 QO) (MDef _ (m_endog _ h_def) (m_stoch _ h_def) [] [("rho", DNum (q 1 2)); ("c", DNum c)] [] (map GTree lmodel)) (h_args c).
Proof.
  constructor; try reflexivity.
  - intros x i t h [E|[E|[E|[]]]]; injection E as <- <- <- <-; repeat apply conj; reflexivity.
  - intros x s [E|[E|[]]]; injection E as <- <-; right; split; reflexivity.
  - intros x s [].
  - exists false; reflexivity.
Qed.
Example C92_history_nonvacuous :
  describes Qc (r1 QO) h_def (h_args (q 2 1)) /\ describes Qc (r1 QO) (effects Qc (r1 QO) h_ops h_def) (h_args z1) /\
  distinct Qc (effects Qc (r1 QO) h_ops h_def) /\ NoDup (keys (m_params Qc h_def)) /\ NoDup (keys (m_locals Qc h_def)) /\
  exists m0 m l s, q_new (h_args (q 2 1)) = Ok m0 /\ q_run h_ops m0 = (m, l) /\ additions_made Qc _ _ l /\ repaired Qc _ _ l /\
    snd (q_step (Solve 1) m) = Ok (OSolution s) /\
    exists m1, q_new (h_args z1) = Ok m1 /\
      solvable Qc QO q_ops qgrad qjacobian Qcle no_function squares lendog lstoch lparams lmodel (c_space _ _ (derived _ _ _ m1)) /\
      sp_ss (c_space _ _ (derived _ _ _ m0)) = [z0; z0; q 2 1].
Proof.
  split; [exact (h_describes (q 2 1))|]; split; [exact (h_describes z1)|].
  split; [repeat apply conj; cbn; [repeat constructor; cbn; intuition discriminate|repeat constructor; cbn; intuition discriminate|intuition discriminate|intuition discriminate]|].
  split; [repeat constructor; cbn; intuition discriminate|]; split; [constructor|].
  assert (E : match q_new (h_args (q 2 1)), q_new (h_args z1) with
    | Ok m0, Ok m1 => let (m, l) := q_run h_ops m0 in
        map (fun p => match snd p with Ok _ => true | Err _ => false end) l = [true; true; true; true] /\
        match snd (q_step (Solve 1) m) with Ok (OSolution s) => lspace (c_space _ _ (derived _ _ _ m1)) = true /\ sp_ss (c_space _ _ (derived _ _ _ m0)) = [z0; z0; q 2 1] | _ => False end
    | _, _ => False end) by (vm_compute; repeat split; reflexivity).
  destruct (q_new (h_args (q 2 1))) as [m0|]; [|contradiction]; destruct (q_new (h_args z1)) as [m1|]; [|contradiction].
  destruct (q_run h_ops m0) as [m l] eqn:Er; destruct E as [El E]; destruct (q_step (Solve 1) m) as [m' [[| |s|]|]] eqn:Es; cbn [snd] in E; try contradiction.
  destruct E as [E1 E2].
  assert (A : forall o e, ~ In (o, Err e) l) by (intros o e H; apply (in_map (fun p => match snd p with Ok _ => true | Err _ => false end)) in H; rewrite El in H; cbn in H; intuition discriminate).
  exists m0, m, l, s; split; [reflexivity|]; split; [exact Er|].
  split; [intros o e H; exfalso; exact (A o e H)|]; split; [intros l1 o e l2 -> ; exfalso; apply (A o e), in_or_app; right; left; reflexivity|].
  split; [rewrite Es; reflexivity|]; exists m1; split; [reflexivity|]; split; [apply lspace_solvable, E1|exact E2].
Qed.
