(** From a model file to a solution and to simulated paths, over the real numbers of the standard
    library: properties C92 and C93. *)
From Verif Require Import Base Syntax Lexer Parser Eval EvalSpec Semantics Factory FactorySpec Calib CalibSpec CalibProofs Indexing IndexingSpec DynFunc DynSpec Vars ExprList
  ModelState ModelStateSpec ModelStateProofs ModelStateProofs2 PropModel OutlineSpec PropDyn
  Nd Mat NdProofs SimSpec OrderProofs CalcSpec CalcProofs CalcProofs2 CalcProofs3 Linearize LinearizeSpec LinearizeProofs Steady SteadyValues SteadyValuesSpec PropSteadyValues
  FirstOrder FirstOrderSpec PropFirst Sylvester SylvesterSpec SecondOrder SecondOrderSpec PropSecond AccuracySpec PropAccuracy
  Pipeline PipelineSpec PipelineProofs PropPipeline Sim SimProofs3 PathSim PathSimSpec PathSimProofs PropPathSim RealSpec RealProofs PropReals.
From Coq Require Import ZArith Reals Lra.
Local Open Scope string_scope.
Local Open Scope list_scope.
Local Open Scope nat_scope.

(** ** What the rules and the paths are for the equations, with limits of the standard library *)
Definition r_lt (x y : R) : bool := if Rlt_dec x y then true else false.
Definition r_eq (x y : R) : bool := if Req_EM_T x y then true else false.
Lemma r_lt_le x y : r_lt x y = false <-> (y <= x)%R.
Proof. unfold r_lt; destruct (Rlt_dec x y); split; intros; try discriminate; try reflexivity; lra. Qed.
Lemma r_eq_iff x y : r_eq x y = true <-> x = y.
Proof. unfold r_eq; destruct (Req_EM_T x y); split; intros; try discriminate; try reflexivity; try assumption; contradiction. Qed.

(** As [solves_first] and [solves_second] (PipelineSpec.v): the expected value of each equation,
    divided by the scale [t] ([t^2]) of the deviations and the shocks, goes to zero. *)
Definition real_solves_first (endog stoch : list string) (params : list (string * R)) (exprs : list (ast R)) (ss : list R) (gy gu : nd R) : Prop :=
  exists L g, occurs_with endog exprs L /\ about R L g /\ proper g /\ rk g = List.length stoch /\
    gy = squeeze R (M2 (rn g) (rs g) (ry g)) /\ gu = squeeze R (M2 (rn g) (rk g) (ru g)) /\
    forall (n : nat) (p : nat -> R) (e : nat -> nat -> R) (x u : nat -> R) (now : R -> nat -> R) (next : nat -> R -> nat -> R),
      AccuracySpec.centred R RO (List.length stoch) n p e ->
      let lag t v := (t * x v)%R in
      let shock t l := (t * u l)%R in
      (forall t, decides R RO g (lag t) (shock t) (now t)) ->
      (forall q t, q < n -> decides R RO g (now t) (fun l => (t * e q l)%R) (next q t)) ->
      Forall (negligible 1 endog stoch params n p ss lag now next shock) exprs.
Definition real_solves_second (endog stoch : list string) (params : list (string * R)) (exprs : list (ast R)) (ss : list R)
    (V : nat -> nat -> R) (gy gu xx xu uu dl : nd R) : Prop :=
  exists L g, occurs_with endog exprs L /\ about R L g /\ proper g /\ rk g = List.length stoch /\
    gy = squeeze R (M2 (rn g) (rs g) (ry g)) /\ gu = squeeze R (M2 (rn g) (rk g) (ru g)) /\
    sized R xx (rn g) (rs g * rs g) /\ sized R xu (rn g) (rs g * rk g) /\ sized R uu (rn g) (rk g * rk g) /\ sized R dl (rn g) 1 /\
    forall (n : nat) (p : nat -> R) (e : nat -> nat -> R) (x u : nat -> R) (now : R -> nat -> R) (next : nat -> R -> nat -> R),
      AccuracySpec.centred R RO (List.length stoch) n p e -> AccuracySpec.covariance R RO (List.length stoch) n p e V ->
      let lag t v := (t * x v)%R in
      let shock t l := (t * u l)%R in
      (forall t, moves R RO g xx xu uu dl (lag t) (shock t) (t * t)%R (now t)) ->
      (forall q t, q < n -> moves R RO g xx xu uu dl (now t) (fun l => (t * e q l)%R) (t * t)%R (next q t)) ->
      Forall (negligible 2 endog stoch params n p ss lag now next shock) exprs.
(** As [paths_solve] (PathSimSpec.v). *)
Definition real_paths_solve (endog stoch : list string) (params : list (string * R)) (exprs : list (ast R)) (ss : list R)
    (factor : nat -> nat -> R) (simulation : nd R -> nd R -> res (list (list R))) : Prop :=
  let n := List.length endog in let k := List.length stoch in
  forall (T r : nat) (u : nat -> nat -> R) (x : nat -> R) (N : nat) (w : nat -> R) (e : nat -> nat -> R),
  S (S r) < T -> AccuracySpec.centred R RO k N w e ->
  exists path : nat -> R -> list (list R),
    (forall q h, simulation (M2 T k (fun t l => (h * (if t =? S r then e q l else u t l))%R)) (V1 n (fun v => (nth v ss 0 + h * x v)%R)) = Ok (path q h)) /\
    (forall q h, table R T n (path q h)) /\
    (forall q q' h t v, t <= S r -> v < n -> value R RO (path q h) t v = value R RO (path q' h) t v) /\
    Forall (fun eq => exists gap : nat -> R -> R,
      (forall q, q < N -> around (fun h =>
         equation_value R real_ops endog stoch params (value R RO (path q h) r) (value R RO (path q h) (S r)) (value R RO (path q h) (S (S r)))
           (fun l => (h * SimSpec.Sum R RO k (fun j => u r j * factor j l)%R)%R) eq (gap q h))) /\
      let E h := SimSpec.Sum R RO N (fun q => (w q * gap q h)%R) in
      E 0%R = 0%R /\ goes_to_zero (fun h => (E h / h)%R)) exprs.

Theorem C92_meaning : forall endog stoch params exprs ss,
  (forall gy gu, solves_first R RO Rle real_ops endog stoch params exprs ss gy gu <-> real_solves_first endog stoch params exprs ss gy gu) /\
  (forall V gy gu xx xu uu dl, solves_second R RO Rle real_ops endog stoch params exprs ss V gy gu xx xu uu dl <-> real_solves_second endog stoch params exprs ss V gy gu xx xu uu dl).
Proof.
  intros endog stoch params exprs ss; split.
  - intros gy gu; split; intros (L & g & H1 & H2 & H3 & H4 & H5 & H6 & H); exists L, g; do 6 (split; [assumption|]);
      intros n p e x u now next Hc lag shock D1 D2; specialize (H n p e x u now next Hc D1 D2); cbn zeta in H; revert H; apply Forall_impl; intros eq; apply C78_meaning.
  - intros V gy gu xx xu uu dl; split; intros (L & g & H1 & H2 & H3 & H4 & H5 & H6 & H7 & H8 & H9 & H10 & H); exists L, g; do 10 (split; [assumption|]);
      intros n p e x u now next Hc Hv lag shock D1 D2; specialize (H n p e x u now next Hc Hv D1 D2); cbn zeta in H; revert H; apply Forall_impl; intros eq; apply C78_meaning.
Qed.
Print Assumptions C92_meaning.
Theorem C93_meaning : forall endog stoch params exprs ss factor simulation,
  paths_solve R RO Rle real_ops endog stoch params exprs ss factor simulation <-> real_paths_solve endog stoch params exprs ss factor simulation.
Proof.
  intros endog stoch params exprs ss factor simulation; split; intros H; intros T r u x N w e HT Hc;
    destruct (H T r u x N w e HT Hc) as (path & H1 & H2 & H3 & H4); exists path; (split; [exact H1|]); (split; [exact H2|]); (split; [exact H3|]);
    revert H4; apply Forall_impl; intros eq (gap & G1 & G2); exists gap; (split; [intros q Hq; apply near_around, (G1 q Hq)|]).
  - exact (proj1 (small1_real _) G2).
  - exact (proj2 (small1_real _) G2).
Qed.
Print Assumptions C93_meaning.

Section Reals.
  Notation named := OutlineSpec.named.
  Variable nan : R.
  Variable minimize : solver -> (list R -> res R) -> list R -> res (list R).
  Variable grad : (list R -> res R) -> list R -> res (list R).
  Variable jacobian : (list R -> res (list R)) -> list R -> res (list (list R)).
  Variable qr : nat -> nat -> mat R -> res (mat R * mat R).
  Variable rank : nat -> nat -> mat R -> nat.
  Variable ordqz : nat -> mat R -> mat R -> res (schur R).
  Variable inv : nat -> mat R -> res (mat R).
  Variable qz : nat -> mat R -> mat R -> res (mat R * mat R * mat R * mat R).
  Variable solve : nat -> nat -> mat R -> mat R -> res (mat R).
  Variable chol : nat -> (nat -> nat -> R) -> res (nat -> nat -> R).
  Variable truthy isnum : R -> bool.
  Variable float_of : text -> option R.
  Variable trunc : R -> option Z.
  Variable parse_text : text -> res (ast R).
  Variable keeps : bool.

  (** The model with its numerical parts. *)
  Notation space := (whole_space R RO real_ops r_lt nan minimize grad qr rank ordqz).
  Notation solver_ := (whole_solver R RO real_ops r_eq nan minimize grad jacobian inv qz solve).
  Notation read_model := (Factory.read_model R real_ops 2%R float_of trunc 0%R).
  Notation new_model := (ModelState.new_model R real_ops 0%R 1%R truthy float_of trunc parse_text (space_of R) (rules R) space).
  Notation step := (ModelState.step R real_ops 0%R 1%R truthy isnum float_of trunc parse_text keeps (space_of R) (rules R) space solver_).
  Notation run := (ModelState.run R real_ops 0%R 1%R truthy isnum float_of trunc parse_text keeps (space_of R) (rules R) space solver_).
  Notation simulation := (whole_simulate R RO real_ops isnum nan minimize chol space solver_).
  Notation definition := (ModelState.definition R (space_of R) (rules R)).
  Notation solvable := (PropPipeline.solvable R RO real_ops grad jacobian Rle real_fns real_pows).

  (** What the routines promise, in exact arithmetic. *)
  Definition exact_first : Prop :=
    qr_routine R RO qr /\ schur_routine R RO Rle ordqz /\ inverse_routine R RO inv /\ linear_routine R RO solve /\
    (forall s m x0 y, minimize s (least_squares R RO real_ops m) x0 = Ok y -> least R Rle (List.length x0) (least_squares R RO real_ops m) y).
  Definition exact_second : Prop := real_schur_routine R RO qz /\ fails_when_singular R RO solve /\ refuses_singular R RO solve.

  Definition real_solution_for (m : mstate R (space_of R) (rules R)) (o : nat) (s : rules R)
      (endog stoch : list string) (params : list (string * R)) (exprs : list (ast R)) (fits : Prop) : Prop :=
    exists sp, step (Read RSpace) m = (m, Ok (OValue (VSpace sp))) /\
      ((o = 1 /\ exists gy gu, s = Pipeline.First gy gu /\
         (fits -> solvable endog stoch params exprs sp ->
          is_steady R RO real_ops endog stoch exprs params (sp_ss sp) /\ real_solves_first endog stoch params exprs (sp_ss sp) gy gu)) \/
       ((o = 0 \/ o = 2) /\ exists sigma gy gu xx xu uu dl, s = Pipeline.Second gy gu xx xu uu dl /\
         snd (step (Read RSigma) m) = Ok (OValue (VSigma sigma)) /\
         (fits -> solvable endog stoch params exprs sp ->
          is_steady R RO real_ops endog stoch exprs params (sp_ss sp) /\ real_solves_second endog stoch params exprs (sp_ss sp) sigma gy gu xx xu uu dl))).
  Definition real_simulations_for (m : mstate R (space_of R) (rules R)) (endog stoch : list string) (params : list (string * R)) (exprs : list (ast R)) (fits : Prop) : Prop :=
    exists m1 s sp sigma factor, step (Simulate 1) m = (m1, Ok (OSimulation s sp)) /\
      snd (step (Read RSigma) m1) = Ok (OValue (VSigma sigma)) /\ chol (List.length stoch) sigma = Ok factor /\
      (fits -> solvable endog stoch params exprs sp -> 1 < List.length endog \/ List.length stoch = 1 ->
       is_steady R RO real_ops endog stoch exprs params (sp_ss sp) /\
       forall periods noise, real_paths_solve endog stoch params exprs (sp_ss sp) factor
         (fun shocks init => snd (simulation 1 (Some shocks) periods noise (Some init) m))).

  Lemma solution_real m o s endog stoch params exprs fits :
    solution_for R RO real_ops r_lt r_eq nan minimize grad jacobian qr rank ordqz inv qz solve truthy isnum float_of trunc parse_text keeps Rle real_fns real_pows m o s endog stoch params exprs fits ->
    real_solution_for m o s endog stoch params exprs fits.
  Proof.
    intros (sp & Rs & [(Eo & gy & gu & Eq & S)|(Eo & sg & gy & gu & xx & xu & uu & dl & Eq & Rg & S)]); exists sp; (split; [exact Rs|]); [left|right].
    - split; [exact Eo|]; exists gy, gu; split; [exact Eq|]; intros Pf Sv; destruct (S Pf Sv) as [S1 S2]; split; [exact S1|]; apply C92_meaning, S2.
    - split; [exact Eo|]; exists sg, gy, gu, xx, xu, uu, dl; split; [exact Eq|]; split; [exact Rg|]; intros Pf Sv; destruct (S Pf Sv) as [S1 S2]; split; [exact S1|]; apply C92_meaning, S2.
  Qed.
  Lemma simulations_real m endog stoch params exprs fits :
    simulations_for R RO real_ops r_lt r_eq nan minimize grad jacobian qr rank ordqz inv qz solve chol truthy isnum float_of trunc parse_text keeps Rle real_fns real_pows m endog stoch params exprs fits ->
    real_simulations_for m endog stoch params exprs fits.
  Proof.
    intros (m1 & s & sp & sg & fa & H1 & H2 & H3 & H); exists m1, s, sp, sg, fa; split; [exact H1|]; split; [exact H2|]; split; [exact H3|].
    intros Pf Sv Wd; destruct (H Pf Sv Wd) as [S1 S2]; split; [exact S1|]; intros periods noise; apply C93_meaning, S2.
  Qed.
  Lemma real_none : forall v, o_isnone real_ops v = true -> v = o_none real_ops.
  Proof. intros v H; discriminate H. Qed.

  (** Full statement: as for C92_file_partial and C92_history_partial, over the real numbers. *)
  Theorem C92_reals_partial : exact_first -> exact_second ->
    forall (t : text) (out : outline R) (m m' : mstate R (space_of R) (rules R)) (o : nat) (s : rules R),
    read_model t = Ok out -> new_model (outline_args R out) = Ok m -> step (Solve o) m = (m', Ok (OSolution s)) ->
    let params := model_scope R (definition m) in
    exists f, parse_file R float_of trunc 0%R t = Ok f /\ values_of R real_ops f params /\
      real_solution_for m o s (named R "var" f) (named R "varexo" f) params (equations R f) (plain_file R f).
  Proof.
    intros (H1 & H2 & H3 & H4 & H5) (H6 & H7 & H8) t out m m' o s Ho Hnew Hst params.
    destruct (C92_file_partial R RO real_ops r_lt r_eq nan minimize grad jacobian qr rank ordqz inv qz solve 2%R truthy isnum float_of trunc 0%R parse_text keeps
      Rinv Rle real_fns real_pows R_field R_ordered r_lt_le r_eq_iff real_interprets real_none H1 H2 H3 H4 H6 H7 H8 H5 t out m m' o s Ho Hnew Hst) as (f & Hf & Hv & S).
    exists f; split; [exact Hf|]; split; [exact Hv|]; apply solution_real, S.
  Qed.
  Theorem C92_history_reals_partial : exact_first -> exact_second ->
    forall (d : mdef R) (a : args R) (m0 : mstate R (space_of R) (rules R)) (os : list (op R)) (m m' : mstate R (space_of R) (rules R)) l (o : nat) (s : rules R),
    ModelStateSpec.describes R 1%R d a -> NoDup (keys (m_params R d)) -> NoDup (keys (m_locals R d)) ->
    new_model a = Ok m0 -> run os m0 = (m, l) -> additions_made R _ _ l -> repaired R _ _ l -> distinct R (effects R 1%R os d) ->
    step (Solve o) m = (m', Ok (OSolution s)) ->
    let D := effects R 1%R os d in
    let ns := map fst (m_endog R D) in let sv := map fst (m_stoch R D) in
    forall a', ModelStateSpec.describes R 1%R D a' -> exists m1 es pv lv, new_model a' = Ok m1 /\
      mapM (parse_given R parse_text) (m_exprs R D) = Ok es /\
      satisfies R real_ops float_of trunc pv (m_params R D) /\ satisfies R real_ops float_of trunc lv (m_locals R D) /\
      let sc := merge R pv lv in
      real_solution_for m1 o s ns sv sc es (readable ns sv es sc /\ List.length es = List.length ns).
  Proof.
    intros (H1 & H2 & H3 & H4 & H5) (H6 & H7 & H8) d a m0 os m m' l o s De N1 N2 Hnew Hr Ha Hrp Di Hst D ns sv a' De'.
    destruct (C92_history_partial R RO real_ops r_lt r_eq nan minimize grad jacobian qr rank ordqz inv qz solve truthy isnum float_of trunc parse_text keeps
      Rinv Rle real_fns real_pows R_field R_ordered r_lt_le r_eq_iff real_interprets H1 H2 H3 H4 H6 H7 H8 H5 d a m0 os m m' l o s De N1 N2 Hnew Hr Ha Hrp Di Hst a' De')
      as (m1 & es & pv & lv & E1 & E2 & E3 & E4 & S).
    exists m1, es, pv, lv; split; [exact E1|]; split; [exact E2|]; split; [exact E3|]; split; [exact E4|]; cbn zeta; apply solution_real, S.
  Qed.

  (** Full statement: as for C93_file_partial and C93_history_partial, over the real numbers. *)
  Theorem C93_reals_partial : exact_first ->
    forall (t : text) (out : outline R) (m : mstate R (space_of R) (rules R)) given periods noise init p0,
    read_model t = Ok out -> new_model (outline_args R out) = Ok m -> snd (simulation 1 given periods noise init m) = Ok p0 ->
    let params := model_scope R (definition m) in
    exists f, parse_file R float_of trunc 0%R t = Ok f /\ values_of R real_ops f params /\
      real_simulations_for m (named R "var" f) (named R "varexo" f) params (equations R f) (plain_file R f).
  Proof.
    intros (H1 & H2 & H3 & H4 & H5) t out m gv per nz i p0 Ho Hnew H0 params.
    destruct (C93_file_partial R RO real_ops r_lt r_eq nan minimize grad jacobian qr rank ordqz inv qz solve chol 2%R truthy isnum float_of trunc 0%R parse_text keeps
      Rinv Rle real_fns real_pows R_field R_ordered r_lt_le r_eq_iff real_interprets real_none H1 H2 H3 H4 H5 t out m gv per nz i p0 Ho Hnew H0) as (f & Hf & Hv & S).
    exists f; split; [exact Hf|]; split; [exact Hv|]; apply simulations_real, S.
  Qed.
  Theorem C93_history_reals_partial : exact_first ->
    forall (d : mdef R) (a : args R) (m0 : mstate R (space_of R) (rules R)) (os : list (op R)) (m : mstate R (space_of R) (rules R)) l given periods noise init p0,
    ModelStateSpec.describes R 1%R d a -> NoDup (keys (m_params R d)) -> NoDup (keys (m_locals R d)) ->
    new_model a = Ok m0 -> run os m0 = (m, l) -> additions_made R _ _ l -> repaired R _ _ l -> distinct R (effects R 1%R os d) ->
    snd (simulation 1 given periods noise init m) = Ok p0 ->
    let D := effects R 1%R os d in
    let ns := map fst (m_endog R D) in let sv := map fst (m_stoch R D) in
    exists es pv lv, mapM (parse_given R parse_text) (m_exprs R D) = Ok es /\
      satisfies R real_ops float_of trunc pv (m_params R D) /\ satisfies R real_ops float_of trunc lv (m_locals R D) /\
      let sc := merge R pv lv in
      real_simulations_for m ns sv sc es (readable ns sv es sc /\ List.length es = List.length ns).
  Proof.
    intros (H1 & H2 & H3 & H4 & H5) d a m0 os m l gv per nz i p0 De N1 N2 Hnew Hr Ha Hrp Di H0 D ns sv.
    destruct (C93_history_partial R RO real_ops r_lt r_eq nan minimize grad jacobian qr rank ordqz inv qz solve chol truthy isnum float_of trunc parse_text keeps
      Rinv Rle real_fns real_pows R_field R_ordered r_lt_le r_eq_iff real_interprets H1 H2 H3 H4 H5 d a m0 os m l gv per nz i p0 De N1 N2 Hnew Hr Ha Hrp Di H0)
      as (es & pv & lv & E2 & E3 & E4 & S).
    exists es, pv, lv; split; [exact E2|]; split; [exact E3|]; split; [exact E4|]; cbn zeta; apply simulations_real, S.
  Qed.
End Reals.
Print Assumptions C92_reals_partial.
Print Assumptions C92_history_reals_partial.
Print Assumptions C93_reals_partial.
Print Assumptions C93_history_reals_partial.
