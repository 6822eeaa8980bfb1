(** Statistics that are returned belong to a model that passed verification: property C102. *)
From Verif Require Import Base Syntax Lexer Parser Eval EvalSpec Semantics Factory FactorySpec Calib CalibSpec CalibProofs Indexing IndexingSpec IndexingProofs IndexingProofs2 DynFunc DynSpec DynProofs DynProofs2 Vars ExprList
  ModelState ModelStateSpec ModelStateProofs ModelStateProofs2 PropModel OutlineSpec PropDyn
  Nd NdInst Mat NdProofs SimSpec OrderProofs CalcSpec CalcProofs CalcProofs2 CalcProofs3 Linearize LinearizeSpec LinearizeProofs Steady SteadyValues SteadyValuesSpec PropSteadyValues
  FirstOrder FirstOrderSpec FirstOrderProofs FirstOrderProofs2 FirstOrderProofs3 FirstOrderProofs4 FirstOrderProofs5 FirstOrderCurrent PropFirst Sylvester SylvesterSpec SecondOrder SecondOrderSpec PropSecond AccuracySpec PropAccuracy FirstOrderExample Gauss SylvesterExample LinearExample
  Pipeline PipelineSpec PipelineProofs PropPipeline Sim SimProofs3 PathSim PathSimSpec PathSimProofs PropPathSim
  Moments MomentsSpec MomentsProofs MomentsProofs2 MomentsProofs3 MomentsProofs4 MomentsExample PropMoments StatsState StatsStateSpec StatsStateProofs StatsStateProofs2
  StableSpec StableProofs StableProofs4 StableProofs5 PathStable StatsVerified PropStatsState.
From Coq Require Import ZArith QArith Qcanon Permutation.
Local Open Scope string_scope.
Local Open Scope list_scope.
Local Open Scope nat_scope.

Section C102.
  Notation named := OutlineSpec.named.
  Variable F : Type.
  Variable O : rops F.
  Variable P : ops F.
  Variable ltb eqb : F -> F -> bool.
  Variable nan : F.
  Variable minimize : solver -> (list F -> res F) -> list F -> res (list F).
  Variable grad : (list F -> res F) -> list F -> res (list F).
  Variable jacobian : (list F -> res (list F)) -> list F -> res (list (list F)).
  Variable qr : nat -> nat -> mat F -> res (mat F * mat F).
  Variable rank : nat -> nat -> mat F -> nat.
  Variable ordqz : nat -> mat F -> mat F -> res (schur F).
  Variable inv : nat -> mat F -> res (mat F).
  Variable qz : nat -> mat F -> mat F -> res (mat F * mat F * mat F * mat F).
  Variable solve : nat -> nat -> mat F -> mat F -> res (mat F).
  Variable lyap : nat -> mat F -> mat F -> res (mat F).
  Variable lsolve : nat -> mat F -> vec F -> res (vec F).
  Variable chol_low : nat -> mat F -> res (mat F).
  Variable sqrt abs : F -> F.
  Variable two : F.
  Variable truthy isnum : F -> bool.
  Variable float_of : text -> option F.
  Variable trunc : F -> option Z.
  Variable nzero : F.
  Variable parse_text : text -> res (ast F).
  Variable keeps : bool.

  (** The model with its numerical parts. *)
  Notation space := (whole_space F O P ltb nan minimize grad qr rank ordqz).
  Notation solver_ := (whole_solver F O P eqb nan minimize grad jacobian inv qz solve).
  Notation read_model := (Factory.read_model F P two float_of trunc nzero).
  Notation new_model := (ModelState.new_model F P (r0 O) (r1 O) truthy float_of trunc parse_text (space_of F) (rules F) space).
  Notation step := (ModelState.step F P (r0 O) (r1 O) truthy isnum float_of trunc parse_text keeps (space_of F) (rules F) space solver_).
  Notation sstep := (StatsState.sstep F O P ltb isnum nan minimize rank lyap lsolve chol_low sqrt abs truthy float_of trunc parse_text keeps space solver_).
  Notation srun := (StatsState.srun F O P ltb isnum nan minimize rank lyap lsolve chol_low sqrt abs truthy float_of trunc parse_text keeps space solver_).
  Notation definition := (ModelState.definition F (space_of F) (rules F)).
  Notation derived := (ModelState.derived F (space_of F) (rules F)).

  (** What the routines promise, in exact arithmetic. *)
  Variable finv : F -> F.
  Variable le : F -> F -> Prop.
  Variable fns : string -> smooth_fun F.
  Variable pows : F -> smooth_fun F.
  Hypothesis FT : is_field O finv.
  Hypothesis OR : is_ordered O le.
  Hypothesis Hl : forall x y, ltb x y = false <-> le y x.
  Hypothesis Heq : forall x y, eqb x y = true <-> x = y.
  Hypothesis HI : interprets F O le P fns pows.
  Hypothesis Hn : forall v, o_isnone P v = true -> v = o_none P.
  Hypothesis Hqr : qr_routine F O qr.
  Hypothesis Hqz : schur_routine F O le ordqz.
  Hypothesis Hinv : inverse_routine F O inv.
  Hypothesis Hs : linear_routine F O solve.
  Hypothesis Hm : forall s m x0 y, minimize s (least_squares F O P m) x0 = Ok y -> least F le (List.length x0) (least_squares F O P m) y.
  Hypothesis HL : solves_lyapunov F O lyap.

  Notation solvable := (PropPipeline.solvable F O P grad jacobian le fns pows).

  Notation good := (StatsStateProofs.good F O P isnum lyap space).
  Notation answered := (StatsStateProofs2.answered F O P isnum lyap sqrt).
  Notation checked := (StatsVerified.checked F O ltb rank).
  Notation fresh := (ModelStateProofs.fresh F (space_of F) space).

  (** As many roots outside the unit circle as variables with a lead: then the others are as
      many as the states. *)
  Lemma outside_ok e : StatsState.outside F O ltb e = true <-> outside_circle F O le e.
  Proof using Hl.
    destruct e as [re im| |]; cbn; [|split; auto|split; [discriminate|contradiction]].
    rewrite <- Hl; destruct (ltb _ _); split; auto; try discriminate; intros H; elim H; reflexivity.
  Qed.
  Lemma solved_counted ns is (sv : list (svar F)) es sc x st dy sp gy gu L g : fresh ns is sv es sc x st dy sp ->
    solver_ None is st dy sp = Ok (Pipeline.First gy gu) ->
    readable ns (map sv_name sv) es sc -> List.length es = List.length ns ->
    (forall l, signature F ns es l -> differentiates F O le P ns (map sv_name sv) es sc grad jacobian l) ->
    List.length (sp_ss sp) = List.length ns -> smooth_at F O ns (map sv_name sv) es sc fns pows (sp_ss sp) ->
    occurs_with ns es L -> about F L g -> proper g ->
    List.length (filter (StatsState.outside F O ltb) (eigen (sp_state sp))) = n_forward x ->
    (forall e, In e (eigen (sp_state sp)) -> inside_circle F O le e \/ outside_circle F O le e) ->
    separated F O le (eigen (sp_state sp)) (rs g).
  Proof using FT OR Hl HI Hqr Hqz.
    intros H Es (Nd & Nc & R & W & Dj) Lx Hd Ls Sm Oc Ab Pr Hc Hall.
    destruct (fresh_built F O P ltb nan minimize grad qr rank ordqz _ _ _ _ _ _ _ _ _ H) as (B & _ & _ & _ & J & S).
    assert (Hx : r_index F dy = x).
    { destruct H as (? & _ & _ & _ & H4 & _); unfold new_dynamic in H4; apply bind_ok in H4 as (u & _ & H4); injection H4 as <-; reflexivity. }
    cbn [whole_solver] in Es; apply bind_ok in Es as ([gy' gu'] & Eg & Es); cbn [fst snd] in Es; injection Es as E1 E2; subst gy' gu'.
    destruct (expansion F O finv FT le OR P fns pows HI ns (map sv_name sv) es sc Nd Nc R W Dj (sp_ss sp) Ls Sm grad jacobian Hd)
      as (m' & lls & J' & H' & Em' & El & Ei & Sg & EJ & _ & _ & EX).
    rewrite B in Em'; injection Em' as <-; rewrite EJ in J; injection J as J.
    pose proof (Ne ns (map sv_name sv) Nd) as Nn.
    destruct (lls_offsets F ns es lls Nn R El) as (Of & Ir & Nk); pose proof (proj1 Of) as LL.
    rewrite <- Hx in Hc; rewrite Ei in S, Eg, Hc; rewrite <- J in S; rewrite Lx, <- LL in S.
    set (L' := map snd lls) in *; set (k := List.length (map sv_name sv)) in *.
    pose proof (solved_current F O ltb qr rank ordqz inv solve L' _ J' _ _ _ Ir S Eg) as H0.
    destruct (same_places F ns es L' L g k Of Oc Ab H0) as [Po Ps].
    destruct (solved_inv F O finv FT le ltb qr rank ordqz inv solve Hqr Hqz L' k H0 J' _ _ S Eg) as (Hb & LN & _).
    assert (Rs : rs g = List.length (members_of L' (backward L'))).
    { destruct Pr as (_ & Lst & _); rewrite <- Lst, <- Ps, (state_positions L' k H0), seq_length; reflexivity. }
    rewrite Rs; rewrite (n_forward_is L' k H0) in Hc; rewrite (nf_is L' k H0) in LN.
    apply (counted F O le OR (StatsState.outside F O ltb) outside_ok (eigen (sp_state sp)) _ (List.length (MX L') + List.length (PF L'))); try assumption.
    rewrite (nb_is L' k H0) in Hb.
    destruct (state_inv F O finv FT ltb qr rank ordqz Hqr L' k H0 Hb J' _ S) as (a & Q & _ & _ & _ & _ & d & e' & q0 & kk' & _ & Eq & _ & Est).
    pose proof (Hqz _ _ _ _ Eq) as Sf; rewrite Est; cbn [eigen state_of].
    rewrite (f_len _ _ _ _ _ _ _ Sf); exact (f_ordered _ _ _ _ _ _ _ Sf).
  Qed.

  (** What an answer says, if it leaves the model [m]: the state space that can be read has as
      many roots outside the unit circle as there are variables with a lead; and if none is on
      it, the solution that can be read is a stable rule that solves the equations to first
      order around a steady state, and the answer gives the moments of the processes that
      follow it. *)
  Definition verified_statistics (m : mstate F (space_of F) (rules F)) (q : query) (a : answer F)
      (endog stoch : list string) (params : list (string * F)) (exprs : list (ast F)) (fits : Prop) : Prop :=
    exists x sp sigma s, snd (step (Read RIndexes) m) = Ok (OValue (VIndexes x)) /\ snd (step (Read RSpace) m) = Ok (OValue (VSpace sp)) /\
      snd (step (Read RSigma) m) = Ok (OValue (VSigma sigma)) /\ snd (step ReadSolution m) = Ok (OSolution s) /\
      (forall out, (forall e, out e = true <-> outside_circle F O le e) -> List.length (filter out (eigen (sp_state sp))) = n_forward x) /\
      (fits -> solvable endog stoch params exprs sp -> 1 < List.length endog ->
       archimedean F O le -> finite_quotients F O ordqz -> refuses_singular F O solve ->
       (forall e, In e (eigen (sp_state sp)) -> inside_circle F O le e \/ outside_circle F O le e) ->
       is_steady F O P endog stoch exprs params (sp_ss sp) /\
       exists g, solving_rule F O le P endog stoch params exprs (sp_ss sp) g /\ first_arrays F s = (gy_of g, gu_of g) /\
         stable F O g /\ no_unit_root F O g /\ reports F O sqrt g sigma q a).

  Lemma model_verified D d0 x gy gu st q a :
    ModelStateProofs.known F P (r0 O) truthy float_of trunc parse_text (space_of F) (rules F) D (fst st) ->
    StatsStateProofs2.solved_by F space solver_ d0 x gy gu -> good d0 x gy gu st -> answered d0 x gy gu q a -> checked (fst st) ->
    let d := definition (fst st) in
    let ns := map ev_name (d_endog F d) in let sv := map sv_name (d_stoch F d) in
    let sc := model_scope F d in let es := trees (d_exprs F d) in
    verified_statistics (fst st) q a ns sv sc es (readable ns sv es sc /\ List.length es = List.length ns).
  Proof using FT OR Hl Heq HI Hqr Hqz Hinv Hs Hm HL.
    intros K B G A Ch d ns sv sc es.
    destruct (model_statistics F O P ltb eqb nan minimize grad jacobian qr rank ordqz inv qz solve lyap sqrt truthy isnum float_of trunc parse_text keeps finv le fns pows
      FT OR Hl Heq HI Hqr Hqz Hinv Hs Hm HL D d0 x gy gu st q a K B G A) as (sp & sg & s & S1 & S2 & S3 & S4).
    destruct st as [m c]; cbn [fst] in *; fold d ns sv sc es in S4.
    pose proof G as [G1 G2 G3 G4 _ _]; cbn [fst snd] in *.
    assert (Ix : snd (step (Read RIndexes) m) = Ok (OValue (VIndexes x))).
    { unfold ModelState.step, ok_with, ModelState.read; rewrite G1; cbn; rewrite G4; reflexivity. }
    assert (Sp : c_space _ _ (derived m) = sp).
    { unfold ModelState.step, ok_with, ModelState.read in S1; rewrite G1 in S1; cbn in S1; injection S1 as <-; reflexivity. }
    unfold StatsVerified.checked in Ch; rewrite Sp, G4 in Ch; unfold StatsState.run_verification in Ch.
    destruct (List.length (filter (StatsState.outside F O ltb) (eigen (sp_state sp))) =? n_forward x) eqn:En; [|discriminate]; apply Nat.eqb_eq in En; clear Ch.
    exists x, sp, sg, s; split; [exact Ix|]; split; [exact S1|]; split; [exact S2|]; split; [exact S3|]; split.
    { intros out Ho; rewrite <- En; f_equal; apply filter_ext; intros e; apply eq_true_iff_eq; rewrite Ho, outside_ok; reflexivity. }
    intros [Re Sq] Sv H1 AR Hfin Hsing Hall; destruct (S4 (conj Re Sq) Sv H1) as (St & g & Sr & Ar & Stab & Rep); split; [exact St|].
    destruct B as (_ & _ & sr & dy & sp' & Fr & So).
    apply (fresh_similar F _ space _ _ _ _ _ _ G3) in Fr; destruct (fresh_fun F _ space _ _ _ _ _ _ _ _ _ _ _ _ _ Fr (proj1 G2)) as (_ & _ & _ & X4).
    rewrite <- (proj2 (similar_names F _ _ G3)) in So; assert (Q : sp' = sp) by congruence; clear X4 Sp; subst sp'.
    unfold fresh_of in Fr; fold d in Fr; fold ns sc es in Fr; pose proof Sv as (Hd & Hex & Sm & Rt); pose proof Sr as (L & Oc & Ab & Pr & Rk & _).
    assert (Sep : separated F O le (eigen (sp_state sp)) (rs g)) by exact (solved_counted _ _ _ _ _ _ _ _ _ _ _ L g Fr So Re Sq Hd (proj1 St) Sm Oc Ab Pr En Hall).
    destruct (Stab AR Hfin Hsing Sep) as [T1 T2]; exists g; repeat (split; [assumption|]); exact (Rep T1).
  Qed.

  (** Full statement: a question about second moments that is answered, after any history, is
      answered for a model that passed verification, so the rule is stable, its processes have
      moments, and the answer gives them.  Proved when no root is on the unit circle, and for
      histories as in C95: whatever raises (verification too) is followed by an addition
      (C102_refuted), and the questions are asked in time. *)
  Theorem C102_partial :
    forall (d : mdef F) (a : args F) (m0 : mstate F (space_of F) (rules F)) (os : list (sop F)) st l q st' ans,
    ModelStateSpec.describes F (r1 O) d a -> NoDup (keys (m_params F d)) -> NoDup (keys (m_locals F d)) ->
    new_model a = Ok m0 -> srun os (m0, blank F) = (st, l) -> all_made F l -> mended F l -> distinct F (effects F (r1 O) (operations F os) d) ->
    orderly F Unsolved l -> in_time (phase_after F Unsolved l) q -> second_moment q ->
    sstep (Ask q) st = (st', Ok (Answer ans)) ->
    let D := effects F (r1 O) (operations F os) d in
    let ns := map fst (m_endog F D) in let sv := map fst (m_stoch F D) in
    exists es pv lv, mapM (parse_given F parse_text) (m_exprs F D) = Ok es /\
      satisfies F P float_of trunc pv (m_params F D) /\ satisfies F P float_of trunc lv (m_locals F D) /\
      let sc := merge F pv lv in
      verified_statistics (fst st') q ans ns sv sc es (readable ns sv es sc /\ List.length es = List.length ns).
  Proof.
    intros d a m0 os st l q st' ans De N1 N2 Hnew Hr Ha Hme Di Hor Hin Hq Hask D ns sv.
    destruct (PropModel.start F P (r0 O) (r1 O) truthy isnum float_of trunc parse_text _ _ space d a m0 De (distinct_effects F (r1 O) _ d Di) Hnew) as (K0 & C0 & _ & So0).
    pose proof (run_known_all F O P ltb isnum nan minimize rank lyap lsolve chol_low sqrt abs truthy float_of trunc parse_text keeps space solver_ os d (m0, blank F) st l K0 Hr Ha) as K.
    assert (I0 : StatsStateProofs2.inv F O P isnum lyap space solver_ Unsolved (m0, blank F)) by (split; [exact C0|split; [right; reflexivity|exact So0]]).
    pose proof (run_inv F O P ltb isnum nan minimize rank lyap lsolve chol_low sqrt abs truthy float_of trunc parse_text keeps space solver_ (first_of F O P eqb nan minimize grad jacobian inv qz solve) (second_of F O P eqb nan minimize grad jacobian inv qz solve) os _ _ _ _ Hr Ha Hme Hor (or_introl I0)) as I.
    assert (V : StatsVerified.honest F O ltb rank st) by exact (run_honest F O P ltb isnum nan minimize rank lyap lsolve chol_low sqrt abs truthy float_of trunc parse_text keeps space solver_ os (m0, blank F) st l Hr Ha Hme (or_introl (or_intror (or_introl eq_refl)))).
    cbn [StatsState.sstep] in Hask; unfold StatsState.bnd in Hask; destruct (StatsState.ask _ _ _ _ _ _ _ _ _ _ _ _ _ _ _ _ _ _ _ _ q st) as [s1 [a1|e]] eqn:Ea; [|discriminate]; injection Hask as <- <-.
    destruct (ask_answer F O P ltb isnum nan minimize rank lyap lsolve chol_low sqrt abs truthy float_of trunc parse_text keeps space solver_ (first_of F O P eqb nan minimize grad jacobian inv qz solve) (second_of F O P eqb nan minimize grad jacobian inv qz solve) _ _ _ _ _ I Hin Hq Ea) as (d0 & x & gy & gu & B & G & A).
    assert (K1 : ModelStateProofs.known F P (r0 O) truthy float_of trunc parse_text (space_of F) (rules F) D (fst s1)).
    { pose proof (quiet_ask F O P ltb isnum nan minimize rank lyap lsolve chol_low sqrt abs truthy float_of trunc parse_text keeps space solver_ q st D K) as Q.
      rewrite Ea in Q; exact Q. }
    pose proof (ask_passed F O P ltb isnum nan minimize rank lyap lsolve chol_low sqrt abs truthy float_of trunc parse_text keeps space solver_ (first_of F O P eqb nan minimize grad jacobian inv qz solve) (second_of F O P eqb nan minimize grad jacobian inv qz solve) _ _ _ _ _ _ _ _ _ I V Hin Hq Ea G) as Ch.
    pose proof (model_verified D d0 x gy gu s1 q a1 K1 B G A Ch) as S; cbn zeta in S.
    destruct (effects_params F O (operations F os) d N1 N2) as [N1' N2'].
    pose proof (tracks_names F P (r0 O) truthy float_of trunc parse_text D _ K1) as E1.
    destruct K1 as (_ & K2 & _ & (pv & P1 & P2) & (lv & L1 & L2) & K6).
    assert (E2 : map sv_name (d_stoch F (definition (fst s1))) = sv).
    { unfold sv; fold D in K2; clear - K2; apply mapM_ok in K2; induction K2 as [|p v l l' Hv _ IH]; cbn [map]; [reflexivity|rewrite IH; f_equal].
      destruct p as [x [|[] []]]; cbn in Hv; try discriminate; injection Hv as <-; reflexivity. }
    rewrite E1, E2 in S; unfold model_scope in S; rewrite P1, L1 in S; cbn [solved] in S.
    exists (trees (d_exprs F (definition (fst s1)))), pv, lv; split; [exact K6|].
    split; [apply (solve_satisfies F P float_of trunc _ _ N1' P2)|]; split; [apply (solve_satisfies F P float_of trunc _ _ N2' L2)|exact S].
  Qed.

  (** The same for a model that is read from a file, and asked any questions. *)
  Theorem C102_file_partial :
    forall (t : text) (out : outline F) (m : mstate F (space_of F) (rules F)) (os : list (sop F)) st l q st' ans,
    read_model t = Ok out -> new_model (outline_args F out) = Ok m ->
    srun os (m, blank F) = (st, l) -> (forall o, In o (operations F os) -> ~ addition F o) -> (forall o e, ~ In (o, Err e) l) ->
    orderly F Unsolved l -> in_time (phase_after F Unsolved l) q -> second_moment q ->
    sstep (Ask q) st = (st', Ok (Answer ans)) ->
    let params := model_scope F (definition m) in
    exists f, parse_file F float_of trunc nzero t = Ok f /\ values_of F P f params /\
      verified_statistics (fst st') q ans (named F "var" f) (named F "varexo" f) params (equations F f) (plain_file F f).
  Proof.
    intros t out m os st l q st' ans Ho Hnew Hr Hno Her Hor Hin Hq Hask params; subst params.
    destruct (file_model F P two (r0 O) (r1 O) truthy float_of trunc nzero parse_text _ _ space Hn t out m Ho Hnew) as (f & Hf & Hv & E1 & E2 & E3 & E4).
    destruct (file_defined F P two (r1 O) float_of trunc nzero Hn t out Ho) as (f' & d & Hf' & _ & _ & De & Di & _).
    destruct (PropModel.start F P (r0 O) (r1 O) truthy isnum float_of trunc parse_text _ _ space d _ m De Di Hnew) as (K0 & C0 & _ & So0).
    assert (Ha : all_made F l) by (intros o e Hi; exfalso; exact (Her _ _ Hi)).
    assert (Hme : mended F l) by (intros l1 o e l2 ->; exfalso; apply (Her o e), in_or_app; right; left; reflexivity).
    pose proof (run_known_all F O P ltb isnum nan minimize rank lyap lsolve chol_low sqrt abs truthy float_of trunc parse_text keeps space solver_ os d (m, blank F) st l K0 Hr Ha) as K.
    rewrite (effects_none F O _ d Hno) in K.
    assert (I0 : StatsStateProofs2.inv F O P isnum lyap space solver_ Unsolved (m, blank F)) by (split; [exact C0|split; [right; reflexivity|exact So0]]).
    pose proof (run_inv F O P ltb isnum nan minimize rank lyap lsolve chol_low sqrt abs truthy float_of trunc parse_text keeps space solver_ (first_of F O P eqb nan minimize grad jacobian inv qz solve) (second_of F O P eqb nan minimize grad jacobian inv qz solve) os _ _ _ _ Hr Ha Hme Hor (or_introl I0)) as I.
    assert (V : StatsVerified.honest F O ltb rank st) by exact (run_honest F O P ltb isnum nan minimize rank lyap lsolve chol_low sqrt abs truthy float_of trunc parse_text keeps space solver_ os (m, blank F) st l Hr Ha Hme (or_introl (or_intror (or_introl eq_refl)))).
    cbn [StatsState.sstep] in Hask; unfold StatsState.bnd in Hask; destruct (StatsState.ask _ _ _ _ _ _ _ _ _ _ _ _ _ _ _ _ _ _ _ _ q st) as [s1 [a1|e]] eqn:Ea; [|discriminate]; injection Hask as <- <-.
    destruct (ask_answer F O P ltb isnum nan minimize rank lyap lsolve chol_low sqrt abs truthy float_of trunc parse_text keeps space solver_ (first_of F O P eqb nan minimize grad jacobian inv qz solve) (second_of F O P eqb nan minimize grad jacobian inv qz solve) _ _ _ _ _ I Hin Hq Ea) as (d0 & x & gy & gu & B & G & A).
    assert (K1 : ModelStateProofs.known F P (r0 O) truthy float_of trunc parse_text (space_of F) (rules F) d (fst s1)).
    { pose proof (quiet_ask F O P ltb isnum nan minimize rank lyap lsolve chol_low sqrt abs truthy float_of trunc parse_text keeps space solver_ q st d K) as Q.
      rewrite Ea in Q; exact Q. }
    pose proof (ask_passed F O P ltb isnum nan minimize rank lyap lsolve chol_low sqrt abs truthy float_of trunc parse_text keeps space solver_ (first_of F O P eqb nan minimize grad jacobian inv qz solve) (second_of F O P eqb nan minimize grad jacobian inv qz solve) _ _ _ _ _ _ _ _ _ I V Hin Hq Ea G) as Ch.
    pose proof (model_verified d d0 x gy gu s1 q a1 K1 B G A Ch) as S; cbn zeta in S.
    assert (T : map ev_name (d_endog F (definition m)) = map ev_name (d_endog F (definition (fst s1))) /\ map sv_name (d_stoch F (definition m)) = map sv_name (d_stoch F (definition (fst s1))) /\
      model_scope F (definition m) = model_scope F (definition (fst s1)) /\ trees (d_exprs F (definition m)) = trees (d_exprs F (definition (fst s1)))).
    { rewrite (tracks_names F P (r0 O) truthy float_of trunc parse_text d _ K0), (tracks_names F P (r0 O) truthy float_of trunc parse_text d _ K1).
      rewrite (tracks_stoch F P (r0 O) truthy float_of trunc parse_text d _ _ K0 K1).
      destruct K0 as (_ & _ & _ & (cp & P1 & P2) & (cl & L1 & L2) & E6), K1 as (_ & _ & _ & (cp' & P1' & P2') & (cl' & L1' & L2') & E6').
      split; [reflexivity|]; split; [reflexivity|]; split; [|congruence]; unfold model_scope; rewrite P1, P1', L1, L1'; cbn [solved]; congruence. }
    destruct T as (T1 & T2 & T3 & T4); rewrite <- T1, <- T2, <- T3, <- T4, E1, E2, E3 in S.
    exists f; split; [exact Hf|]; split; [exact E4|].
    destruct S as (x1 & sp & sg & s & S0 & S1 & S2 & S3 & S5 & S4); exists x1, sp, sg, s; split; [exact S0|]; split; [exact S1|]; split; [exact S2|]; split; [exact S3|]; split; [exact S5|].
    intros Pf; apply S4; split; [|apply Pf]; apply (file_readable F float_of trunc nzero t f _ Hf Hv Pf); destruct E4 as (? & ? & _ & _ & _ & _ & E); exact E.
  Qed.
End C102.
Print Assumptions C102_partial.
Print Assumptions C102_file_partial.

(** ** Concrete cases *)
From Verif Require Import PiecewiseSimSpec PropPiecewiseSim UniqueExample.
From Verif Require PropStable PropRoots PropSettle.

(** The history of C95_nonvacuous: the roots of the model are 1/2, 3/4 and 2. *)
Definition off_circle (e : cnum Qc) : bool := is_inside e || PropRoots.is_outside e.
Definition t_verified := verified_statistics Qc QO q_ops qlt same z0 p_minimize qgrad qjacobian xyz_qr rank_all p_qz p_inv xyz2_real qsolve (fun x => x) q_true (fun _ => true) q_decimal q_trunc p_text false Qcle no_function squares.
Definition t_roots (os : list (sop Qc)) (x : query) : bool :=
  match p_new f_args with
  | Ok m0 => match snd (p_step (Read RSpace) (fst (fst (t_step (Ask x) (fst (t_run os (m0, blank Qc))))))) with
      | Ok (OValue (VSpace sp)) => forallb off_circle (eigen (sp_state sp)) | _ => false end
  | Err _ => false end.
Lemma t_verifies x given : second_moment x -> t_case t_ops x given -> t_roots t_ops x = true ->
  exists m0 st l st' a, p_new f_args = Ok m0 /\ t_run t_ops (m0, blank Qc) = (st, l) /\ all_made Qc l /\ mended Qc l /\ orderly Qc Unsolved l /\ in_time (phase_after Qc Unsolved l) x /\
    t_step (Ask x) st = (st', Ok (Answer a)) /\ table a = given /\
    t_verified (fst st') x a lendog lstoch lparams lmodel (readable lendog lstoch lmodel lparams /\ List.length lmodel = List.length lendog) /\
    exists g ss sg, solving_rule Qc QO Qcle q_ops lendog lstoch lparams lmodel ss g /\ stable Qc QO g /\ no_unit_root Qc QO g /\ reports Qc QO (fun x => x) g sg x a.
Proof.
  intros Hq Hc Hrt; destruct (t_facts t_ops x given Hc) as (m0 & st & l & st' & a & sp & sg & s & E0 & E1 & Ef & A & E2 & Ht & R1 & R2 & R3 & Sv & Hsg & Ha).
  destruct (t_made l A) as [Am Me]; destruct (t_phases t_ops l Ef A) as [Ph _]; destruct (Ph eq_refl) as [Or Ph']; clear Ph.
  assert (It : in_time (phase_after Qc Unsolved l) x) by (rewrite Ph'; exact I).
  exists m0, st, l, st', a; split; [exact E0|]; split; [exact E1|]; split; [exact Am|]; split; [exact Me|]; split; [exact Or|]; split; [exact It|]; split; [exact E2|]; split; [exact Ht|].
  assert (N1 : NoDup (keys (m_params Qc f_def))) by (repeat constructor; cbn; intuition discriminate).
  assert (N2 : NoDup (keys (m_locals Qc f_def))) by constructor.
  destruct q_hypotheses as (H1 & H2 & H3 & H4 & H5 & H6 & H7 & _ & _ & H10 & _).
  destruct (C102_partial Qc QO q_ops qlt same z0 p_minimize qgrad qjacobian xyz_qr rank_all p_qz p_inv xyz2_real qsolve lyapD lsolveD (fun _ _ => Err ValueErr) (fun x => x) Qcabs q_true (fun _ => true) q_decimal q_trunc p_text false
    Qcinv Qcle no_function squares H1 H2 H3 H4 H5 H7 (qz_with_ok _) (inv_with_ok _) H10 p_minimize_ok lyapD_solves
    f_def f_args m0 t_ops st l x st' a f_describes N1 N2 E0 E1 Am Me (t_distinct t_ops eq_refl) Or It Hq E2) as (es & pv & lv & Ep & Sp & Sl & S).
  apply f_params in Sp; apply f_locals in Sl; subst pv lv; cbn in Ep; injection Ep as <-; split; [exact S|].
  destruct S as (x' & sp' & sg' & s' & S0 & S1 & S2 & S3 & _ & S4).
  change (snd (p_step (Read RSpace) (fst st')) = Ok (OValue (VSpace sp'))) in S1.
  assert (sp' = sp) by congruence; subst sp'.
  unfold t_roots in Hrt; rewrite E0, E1 in Hrt; cbn [fst] in Hrt; rewrite E2 in Hrt; cbn [fst] in Hrt; rewrite R1 in Hrt; rewrite forallb_forall in Hrt.
  destruct C95_separated as (B1 & B2 & B3 & _).
  destruct (S4 (conj lmodel_readable eq_refl) Sv ltac:(cbn; lia) B1 B2 B3) as (_ & g & G1 & _ & G2 & G3 & G4).
  - intros e He; apply Hrt, orb_true_iff in He; destruct He as [He|He]; [left; apply is_inside_ok, He|right; apply PropRoots.is_outside_ok, He].
  - exists g, (sp_ss sp), sg'; split; [exact G1|]; split; [exact G2|]; split; [exact G3|exact G4].
Qed.
Example C102_nonvacuous :
  ModelStateSpec.describes Qc (r1 QO) f_def f_args /\ NoDup (keys (m_params Qc f_def)) /\ NoDup (keys (m_locals Qc f_def)) /\ distinct Qc (effects Qc (r1 QO) (operations Qc t_ops) f_def) /\
  forall x given, (x, given) = (Cov, t_cov) \/ (x, given) = (Autocov 2, t_autocov) ->
  exists m0 st l st' a, p_new f_args = Ok m0 /\ t_run t_ops (m0, blank Qc) = (st, l) /\ all_made Qc l /\ mended Qc l /\ orderly Qc Unsolved l /\ in_time (phase_after Qc Unsolved l) x /\
    t_step (Ask x) st = (st', Ok (Answer a)) /\ table a = given /\
    t_verified (fst st') x a lendog lstoch lparams lmodel (readable lendog lstoch lmodel lparams /\ List.length lmodel = List.length lendog) /\
    exists g ss sg, solving_rule Qc QO Qcle q_ops lendog lstoch lparams lmodel ss g /\ stable Qc QO g /\ no_unit_root Qc QO g /\ reports Qc QO (fun x => x) g sg x a.
Proof.
  split; [exact f_describes|]; split; [repeat constructor; cbn; intuition discriminate|]; split; [constructor|]; split; [exact (t_distinct t_ops eq_refl)|].
  intros x given [E|E]; injection E as -> ->; (apply t_verifies; [exact I| |]); vm_compute; repeat apply conj; reflexivity.
Qed.

(** The full statement is false: x = -2 x(-1) + e, y(+1) = 3 y + e.  The first question raises,
    as verification fails; it is not made again, so when the model is solved anew the same
    question is answered.  The variance of x is said to be -1/3. *)
Definition e_minimize (_ : solver) (g : list Qc -> res Qc) (x0 : list Qc) : res (list Qc) :=
  if (List.length x0 =? 2) && q_try g [z0; z0] then Ok [z0; z0] else Err ValueErr.
Lemma e_minimize_ok s m x0 y : e_minimize s (least_squares Qc QO q_ops m) x0 = Ok y -> least Qc Qcle (List.length x0) (least_squares Qc QO q_ops m) y.
Proof.
  unfold e_minimize; destruct (List.length x0 =? 2) eqn:E; cbn [andb]; [|discriminate]; apply Nat.eqb_eq in E; rewrite E.
  destruct (q_try _ _) eqn:T; [|discriminate]; intros H; injection H as <-; split; [reflexivity|].
  unfold q_try in T; destruct (least_squares Qc QO q_ops m _) as [v|] eqn:Ev; [|discriminate T].
  apply same_eq in T; subst v; exists z0; split; [reflexivity|]; intros z v _ H; unfold least_squares in H.
  destruct (mapM _ _) as [r|]; [|discriminate H]; injection H as <-.
  apply (sum_nonneg Qc QO Qcinv Q_field Qcle Q_ordered); intros i _; apply (sq_nonneg Qc QO Qcinv Q_field Qcle Q_ordered).
Qed.
Definition e_space := whole_space Qc QO q_ops qlt z0 e_minimize qgrad (qr_with []) rank_all PropFirst.bad_qz.
Definition e_solver := whole_solver Qc QO q_ops same z0 e_minimize qgrad qjacobian PropFirst.bad_inv xyz2_real qsolve.
Definition e_new := ModelState.new_model Qc q_ops (r0 QO) (r1 QO) q_true q_decimal q_trunc p_text (space_of Qc) (rules Qc) e_space.
Definition e_step := StatsState.sstep Qc QO q_ops qlt (fun _ => true) z0 e_minimize rank_all lyapD lsolveD (fun _ _ => Err ValueErr) (fun x => x) Qcabs q_true q_decimal q_trunc p_text false e_space e_solver.
Definition e_run := StatsState.srun Qc QO q_ops qlt (fun _ => true) z0 e_minimize rank_all lyapD lsolveD (fun _ _ => Err ValueErr) (fun x => x) Qcabs q_true q_decimal q_trunc p_text false e_space e_solver.
Definition e_verified := verified_statistics Qc QO q_ops qlt same z0 e_minimize qgrad qjacobian (qr_with []) rank_all PropFirst.bad_qz PropFirst.bad_inv xyz2_real qsolve (fun x => x) q_true (fun _ => true) q_decimal q_trunc p_text false Qcle no_function squares.
Definition e_def : mdef Qc :=
  MDef _ [("x", (None, None, None)); ("y", (None, None, None))] [("e", DStoch None (Some z1) None None)] [] [] [] (map GTree dmodel).
Definition e_args : args Qc := Args _ dendog dstoch [] (Plain []) (Plain []) [] (FromList false (map GTree dmodel)) [] [] [].
Definition e_ops : list (sop Qc) := [Do (Solve 1); Ask Cov; Do (Solve 1)].
Definition e_cov : list (list (list Q)) := [[[Qmake (-1) 3; Qmake (-1) 3]; [Qmake (-1) 3; Qmake 1 9]]].
Definition e_shape : Prop :=
  match e_new e_args with
  | Ok m0 =>
      match e_run e_ops (m0, blank Qc) with
      | (st, [(Do (Solve 1), Ok _); (Ask Cov, Err _); (Do (Solve 1), Ok _)]) =>
          match e_step (Ask Cov) st with
          | (st', Ok (Answer a)) => table a = e_cov /\
              match snd (ModelState.step Qc q_ops (r0 QO) (r1 QO) q_true (fun _ => true) q_decimal q_trunc p_text false (space_of Qc) (rules Qc) e_space e_solver (Read RIndexes) (fst st')),
                    snd (ModelState.step Qc q_ops (r0 QO) (r1 QO) q_true (fun _ => true) q_decimal q_trunc p_text false (space_of Qc) (rules Qc) e_space e_solver (Read RSpace) (fst st')) with
              | Ok (OValue (VIndexes x)), Ok (OValue (VSpace sp)) => negb (List.length (filter PropRoots.is_outside (eigen (sp_state sp))) =? n_forward x) = true
              | _, _ => False end
          | _ => False end
      | _ => False end
  | Err _ => False end.
Lemma e_describes : ModelStateSpec.describes Qc (r1 QO) e_def e_args.
Proof.
  constructor; try reflexivity.
  - intros x i t h [E|[E|[]]]; injection E as <- <- <- <-; repeat apply conj; reflexivity.
  - intros x s [E|[]]; injection E as <- <-; right; split; reflexivity.
  - intros x s [].
  - exists false; reflexivity.
Qed.
Theorem C102_refuted :
  schur_routine Qc QO Qcle PropFirst.bad_qz /\ inverse_routine Qc QO PropFirst.bad_inv /\ linear_routine Qc QO qsolve /\ solves_lyapunov Qc QO lyapD /\
  ModelStateSpec.describes Qc (r1 QO) e_def e_args /\ NoDup (keys (m_params Qc e_def)) /\ NoDup (keys (m_locals Qc e_def)) /\ distinct Qc (effects Qc (r1 QO) (operations Qc e_ops) e_def) /\
  exists m0 st l st' a, e_new e_args = Ok m0 /\ e_run e_ops (m0, blank Qc) = (st, l) /\ all_made Qc l /\ orderly Qc Unsolved l /\ in_time (phase_after Qc Unsolved l) Cov /\
    e_step (Ask Cov) st = (st', Ok (Answer a)) /\ table a = e_cov /\
    ~ e_verified (fst st') Cov a dendog dstoch [] dmodel (readable dendog dstoch dmodel [] /\ List.length dmodel = List.length dendog).
Proof.
  split; [apply qz_with_ok|]; split; [apply inv_with_ok|]; split; [exact qsolve_ok|]; split; [exact lyapD_solves|].
  split; [exact e_describes|]; split; [constructor|]; split; [constructor|].
  split; [repeat split; repeat constructor; cbn; intuition discriminate|].
  assert (E : e_shape) by (vm_compute; split; reflexivity).
  unfold e_shape in E; destruct (e_new e_args) as [m0|] eqn:E0; [|contradiction]; destruct (e_run e_ops (m0, blank Qc)) as [st l] eqn:E1.
  destruct l as [|[p1 w1] l]; [contradiction|]; destruct p1 as [p1|]; [|contradiction]; destruct p1 as [| | | | | |n1| |]; try contradiction.
  destruct n1 as [|[|]]; try contradiction; destruct w1 as [w1|]; [|contradiction].
  destruct l as [|[p2 w2] l]; [contradiction|]; destruct p2 as [|p2]; [contradiction|]; destruct p2; try contradiction; destruct w2 as [|e2]; [contradiction|].
  destruct l as [|[p3 w3] l]; [contradiction|]; destruct p3 as [p3|]; [|contradiction]; destruct p3 as [| | | | | |n3| |]; try contradiction.
  destruct n3 as [|[|]]; try contradiction; destruct w3 as [w3|]; [|contradiction]; destruct l; [|contradiction].
  destruct (e_step (Ask Cov) st) as [st' [[|a]|]] eqn:E2; try contradiction; destruct E as [Ht E].
  eexists m0, st, _, st', a; split; [reflexivity|]; split; [exact E1|].
  split; [intros o e [H|[H|[H|[]]]]; discriminate H|]; split; [repeat split|]; split; [exact I|]; split; [exact E2|]; split; [exact Ht|].
  intros (x & sp & sg & s & S0 & S1 & _ & _ & Hc & _).
  change (ModelState.step Qc q_ops (r0 QO) (r1 QO) q_true (fun _ => true) q_decimal q_trunc p_text false (space_of Qc) (rules Qc) (whole_space _ _ _ _ _ _ _ _ _ _) (whole_solver _ _ _ _ _ _ _ _ _ _ _))
    with (ModelState.step Qc q_ops (r0 QO) (r1 QO) q_true (fun _ => true) q_decimal q_trunc p_text false (space_of Qc) (rules Qc) e_space e_solver) in S0, S1.
  rewrite S0, S1 in E; rewrite (Hc _ PropRoots.is_outside_ok), Nat.eqb_refl in E; discriminate E.
Qed.
Print Assumptions C102_refuted.

(** A file, that is read, solved and asked: [x] moves by 1/2 and [e], [y] by 3/4 and [-f/2],
    the covariance of [e] and [f] is 1/2, and so that of [x] and [y] is (-1/4)/(1 - 3/8). *)
Definition w_cov : list (list (list Q)) := [[[Qmake 4 3; Qmake (-2) 5; Qmake 14 15]; [Qmake (-2) 5; Qmake 4 7; Qmake 6 35]; [Qmake 14 15; Qmake 6 35; Qmake 116 105]]].
Definition w_step := StatsState.sstep Qc QO q_ops qlt (fun _ => true) z0 q_minimize rank_all lyapD lsolveD (fun _ _ => Err ValueErr) (fun x => x) Qcabs q_true q_decimal q_trunc q_text false q_space q_solver.
Definition w_run := StatsState.srun Qc QO q_ops qlt (fun _ => true) z0 q_minimize rank_all lyapD lsolveD (fun _ _ => Err ValueErr) (fun x => x) Qcabs q_true q_decimal q_trunc q_text false q_space q_solver.
Definition w_verified := verified_statistics Qc QO q_ops qlt same z0 q_minimize qgrad qjacobian xyz_qr rank_all xyz_qz xyz_inv xyz2_real qsolve (fun x => x) q_true (fun _ => true) q_decimal q_trunc q_text false Qcle no_function squares.
Example C102_file_nonvacuous :
  exists f out m st l st' a, lfile = Ok f /\ Factory.read_model Qc q_ops (q 2 1) q_decimal q_trunc z0 (chars ltext) = Ok out /\
  q_new (outline_args Qc out) = Ok m /\ w_run [Do (Solve 1)] (m, blank Qc) = (st, l) /\ (forall o e, ~ In (o, Err e) l) /\ orderly Qc Unsolved l /\ in_time (phase_after Qc Unsolved l) Cov /\
  w_step (Ask Cov) st = (st', Ok (Answer a)) /\ table a = w_cov /\ plain_file Qc f /\ model_scope Qc (definition _ _ _ m) = lparams /\
  w_verified (fst st') Cov a lendog lstoch lparams lmodel (plain_file Qc f) /\
  exists g ss sg, solving_rule Qc QO Qcle q_ops lendog lstoch lparams lmodel ss g /\ stable Qc QO g /\ no_unit_root Qc QO g /\ reports Qc QO (fun x => x) g sg Cov a.
Proof.
  assert (E : match lfile, Factory.read_model Qc q_ops (q 2 1) q_decimal q_trunc z0 (chars ltext) with
    | Ok f, Ok out => match q_new (outline_args Qc out) with Ok m =>
        match w_run [Do (Solve 1)] (m, blank Qc) with
        | (st, [(Do (Solve 1), Ok _)]) =>
            match w_step (Ask Cov) st with
            | (st', Ok (Answer a)) => table a = w_cov /\
                match snd (q_step (Read RSpace) (fst st')) with Ok (OValue (VSpace sp)) =>
                  lspace sp && lscope (model_scope Qc (definition _ _ _ m)) && forallb off_circle (eigen (sp_state sp)) = true | _ => False end
            | _ => False end
        | _ => False end | _ => False end
    | _, _ => False end) by (vm_compute; split; reflexivity).
  destruct lfile as [f|] eqn:Ef; [|contradiction]; destruct (Factory.read_model _ _ _ _ _ _ _) as [out|] eqn:Eo; [|contradiction].
  destruct (q_new _) as [m|] eqn:Em; [|contradiction]; destruct (w_run [Do (Solve 1)] (m, blank Qc)) as [st l] eqn:E1.
  destruct l as [|[p1 w1] l]; [contradiction|]; destruct p1 as [p1|]; [|contradiction]; destruct p1 as [| | | | | |n1| |]; try contradiction.
  destruct n1 as [|[|]]; try contradiction; destruct w1 as [w1|]; [|contradiction]; destruct l; [|contradiction].
  destruct (w_step (Ask Cov) st) as [st' [[|a]|]] eqn:E2; try contradiction; destruct E as [Ht E].
  destruct (snd (q_step (Read RSpace) (fst st'))) as [[|[| | |sp|]| |]|] eqn:R1; try contradiction.
  apply andb_true_iff in E as [E Er]; apply andb_true_iff in E as [E Ep]; apply lscope_is in Ep; rewrite forallb_forall in Er.
  destruct (lfile_plain f Ef) as (F1 & F2 & F3 & F4).
  eexists f, out, m, st, _, st', a; split; [reflexivity|]; split; [reflexivity|]; split; [exact Em|]; split; [exact E1|].
  assert (A : forall o e, ~ In (o, Err e) [(Do (F:=Qc) (Solve 1), Ok w1)]) by (intros o e [H|[]]; discriminate H); split; [exact A|].
  assert (Or : orderly Qc Unsolved [(Do (Solve 1), Ok w1)]) by (split; exact I); split; [exact Or|]; split; [exact I|]; split; [exact E2|]; split; [exact Ht|]; split; [exact F4|]; split; [exact Ep|].
  destruct q_hypotheses as (H1 & H2 & H3 & H4 & H5 & H6 & H7 & H8 & H9 & H10 & H11 & H12 & H13 & H14).
  destruct (C102_file_partial Qc QO q_ops qlt same z0 q_minimize qgrad qjacobian xyz_qr rank_all xyz_qz xyz_inv xyz2_real qsolve lyapD lsolveD (fun _ _ => Err ValueErr) (fun x => x) Qcabs (q 2 1) q_true (fun _ => true) q_decimal q_trunc z0 q_text false
    Qcinv Qcle no_function squares H1 H2 H3 H4 H5 H6 H7 H8 H9 H10 H14 lyapD_solves (chars ltext) out m [Do (Solve 1)] st _ Cov st' a Eo Em E1 ltac:(intros o [<-|[]] []) A Or I I E2) as (f' & Hf & Hv & S).
  assert (f' = f) by (unfold lfile in Ef; congruence); subst f'; rewrite Ep, F1, F2, F3 in S; split; [exact S|].
  destruct S as (x' & sp' & sg' & s' & S0 & S1 & S2 & S3 & _ & S4).
  change (snd (q_step (Read RSpace) (fst st')) = Ok (OValue (VSpace sp'))) in S1.
  assert (sp' = sp) by congruence; subst sp'; destruct C95_separated as (B1 & _ & B3 & _).
  assert (B2 : finite_quotients Qc QO xyz_qz) by (apply PropStable.quotients_ok; vm_compute; reflexivity).
  destruct (S4 F4 (lspace_solvable sp E) ltac:(cbn; lia) B1 B2 B3) as (_ & g & G1 & _ & G2 & G3 & G4).
  - intros e He; apply Er, orb_true_iff in He; destruct He as [He|He]; [left; apply is_inside_ok, He|right; apply PropRoots.is_outside_ok, He].
  - exists g, (sp_ss sp), sg'; split; [exact G1|]; split; [exact G2|]; split; [exact G3|exact G4].
Qed.
