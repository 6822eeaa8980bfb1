(** Verification within histories: what a state space keeps was computed after it passed
    verification. *)
From Verif Require Import Base Syntax Lexer Parser Eval Semantics Factory Indexing DynFunc Vars ExprList ModelState ModelStateSpec ModelStateProofs ModelStateProofs2
  Nd Mat Linearize Steady SteadyValues FirstOrder SecondOrder Pipeline Sim Moments PathSim StatsState StatsStateSpec StatsStateProofs StatsStateProofs2.

Section Passing.
  Variable F : Type.
  Variable O : rops F.
  Variable P : ops F.
  Variable ltb : F -> F -> bool.
  Variable isnum : F -> bool.
  Variable nan : F.
  Variable minimize : solver -> (list F -> res F) -> list F -> res (list F).
  Variable rank : nat -> nat -> mat F -> nat.
  Variable lyap : nat -> mat F -> mat F -> res (mat F).
  Variable lsolve : nat -> mat F -> vec F -> res (vec F).
  Variable chol_low : nat -> mat F -> res (mat F).
  Variable sqrt abs : F -> F.
  Variable truthy : F -> bool.
  Variable float_of : text -> option F.
  Variable trunc : F -> option Z.
  Variable parse_text : text -> res (ast F).
  Variable keeps : bool.
  Variable space : list (option F) -> steady_repr F -> repr F -> res (space_of F).
  Variable solver_ : option (rules F * matrix F) -> list (option F) -> steady_repr F -> repr F -> space_of F -> res (rules F).

  Notation mstate := (ModelState.mstate F (space_of F) (rules F)).
  Notation sstate := (StatsState.sstate F).
  Notation M := (StatsState.M F).
  Notation update := (ModelState.update F P (r0 O) isnum (space_of F) (rules F) space).
  Notation ensure := (ModelState.ensure F P (r0 O) isnum (space_of F) (rules F) space).
  Notation read := (ModelState.read F P (r0 O) isnum (space_of F) (rules F) space).
  Notation finish := (ModelState.finish F (space_of F) (rules F) solver_).
  Notation solve := (ModelState.solve F P (r0 O) isnum (space_of F) (rules F) space solver_).
  Notation solve_one := (ModelState.solve_one F P (r0 O) isnum (space_of F) (rules F) space solver_).
  Notation step := (ModelState.step F P (r0 O) (r1 O) truthy isnum float_of trunc parse_text keeps (space_of F) (rules F) space solver_).
  Notation definition := (ModelState.definition F (space_of F) (rules F)).
  Notation derived := (ModelState.derived F (space_of F) (rules F)).
  Notation altered := (ModelState.altered F (space_of F) (rules F)).
  Notation solution := (ModelState.solution F (space_of F) (rules F)).
  Notation no_sigma := (ModelState.no_sigma F (space_of F) (rules F)).
  Notation updated := (StatsState.updated F O P isnum space).
  Notation renewed := (StatsState.renewed F O P isnum space solver_).
  Notation solve_renews := (StatsState.solve_renews F O P isnum space solver_).
  Notation on_model := (StatsState.on_model F O P isnum truthy float_of trunc parse_text keeps space solver_).
  Notation the_solution := (StatsState.the_solution F O P isnum truthy float_of trunc parse_text keeps space solver_).
  Notation the_indexes := (StatsState.the_indexes F O P isnum truthy float_of trunc parse_text keeps space solver_).
  Notation the_space := (StatsState.the_space F O P isnum truthy float_of trunc parse_text keeps space solver_).
  Notation the_sigma := (StatsState.the_sigma F O P isnum truthy float_of trunc parse_text keeps space solver_).
  Notation the_steady := (StatsState.the_steady F O P isnum nan minimize truthy float_of trunc parse_text keeps space solver_).
  Notation mean_tail := (StatsState.mean_tail F O P ltb isnum rank lyap lsolve truthy float_of trunc parse_text keeps space solver_).
  Notation run_verification := (StatsState.run_verification F O ltb rank).
  Notation verify := (StatsState.verify F O P ltb isnum rank truthy float_of trunc parse_text keeps space solver_).
  Notation the_transition := (StatsState.the_transition F O P ltb isnum rank truthy float_of trunc parse_text keeps space solver_).
  Notation the_variance := (StatsState.the_variance F O P ltb isnum rank lyap truthy float_of trunc parse_text keeps space solver_).
  Notation cov := (StatsState.cov F O P ltb isnum rank lyap truthy float_of trunc parse_text keeps space solver_).
  Notation autocov := (StatsState.autocov F O P ltb isnum rank lyap truthy float_of trunc parse_text keeps space solver_).
  Notation shares := (StatsState.shares F O P ltb isnum rank lyap chol_low abs truthy float_of trunc parse_text keeps space solver_).
  Notation ask := (StatsState.ask F O P ltb isnum nan minimize rank lyap lsolve chol_low sqrt abs truthy float_of trunc parse_text keeps space solver_).
  Notation sstep := (StatsState.sstep F O P ltb isnum nan minimize rank lyap lsolve chol_low sqrt abs truthy float_of trunc parse_text keeps space solver_).
  Notation srun := (StatsState.srun F O P ltb isnum nan minimize rank lyap lsolve chol_low sqrt abs truthy float_of trunc parse_text keeps space solver_).
  Notation bnd := (StatsState.bnd F).
  Notation lift := (StatsState.lift F).

  (** The state space that the model has passes verification. *)
  Definition checked (m : mstate) : Prop := run_verification (c_space _ _ (derived m)) (c_index _ _ (derived m)) = Ok tt.
  Definition sure (st : sstate) : Prop := altered (fst st) = false /\ checked (fst st).
  (** What is kept was computed after verification, or will not be used. *)
  Definition honest (st : sstate) : Prop := altered (fst st) = true \/ snd st = blank F \/ checked (fst st).

  (** ** Operations *)

  Lemma update_settles m m' : update m = (m', Ok tt) -> altered m' = false.
  Proof. intros U; apply (update_spec F P (r0 O) isnum _ _ space _ _ _ U). Qed.
  Definition untouched (m m' : mstate) : Prop := derived m' = derived m /\ altered m' = altered m.
  Lemma untouched_trans a b c : untouched a b -> untouched b c -> untouched a c.
  Proof. intros [H1 H2] [H3 H4]; split; congruence. Qed.
  Lemma finish_same l m m' s : finish l m = (m', Ok s) -> untouched m m'.
  Proof. unfold ModelState.finish; destruct (solver_ _ _ _ _ _); [|discriminate]; intros H; injection H as <- _; split; reflexivity. Qed.
  Lemma one_same m m' s : solve_one m = (m', Ok s) -> altered m && updated m = true \/ untouched m m'.
  Proof.
    unfold ModelState.solve_one, ModelState.ensure, StatsState.updated; destruct (altered m) eqn:A.
    - destruct (update m) as [m1 [[]|e]] eqn:U; [left; reflexivity|discriminate].
    - intros H; right; exact (finish_same _ _ _ _ H).
  Qed.
  Lemma solve_same o m m' s : solve o m = (m', Ok s) -> solve_renews o m = true \/ untouched m m'.
  Proof.
    unfold ModelState.solve, StatsState.solve_renews; cbn zeta; set (o' := if o =? 0 then 2 else o).
    destruct (Nat.eqb_spec o' 1) as [->|N1].
    - cbn [orb Nat.eqb andb]; rewrite orb_false_r; apply one_same.
    - destruct (Nat.eqb_spec o' 2) as [->|N2]; [|discriminate]; cbn [orb andb]; intros H.
      unfold ModelState.solve_two in H; destruct (solve_one m) as [m1 [s1|e]] eqn:E1; [|discriminate].
      destruct (one_same _ _ _ E1) as [->|S1]; [left; reflexivity|].
      unfold ModelState.ensure, StatsState.updated in *; destruct (altered m1 || no_sigma m1).
      + destruct (update m1) as [m2 [[]|e]]; [left; cbn [andb]; apply orb_true_r|discriminate].
      + destruct (c_sigma _ _ (derived m1)); [|discriminate]; right; exact (untouched_trans _ _ _ S1 (finish_same _ _ _ _ H)).
  Qed.
  (** An operation that ends makes a new state space, or leaves the old one, and alters the
      definitions or leaves them. *)
  Lemma step_same o m m' v : step o m = (m', Ok v) -> renewed o m = true \/ altered m' = true \/ untouched m m'.
  Proof.
    destruct o as [ns i t h|ps|gs|ns sh|ns sh|r|o| |o]; intros H.
    1-5: right; left; eapply add_alters; [|exact H]; exact I.
    all: unfold ModelState.step, ok_with in H.
    - unfold ModelState.read in H.
      replace (renewed (Read r) m) with ((match r with RSigma => altered m || no_sigma m | _ => altered m end) && updated m) by (destruct r; reflexivity).
      unfold ModelState.ensure, StatsState.updated in *; destruct (match r with RSigma => _ | _ => _ end) eqn:Eb; cbn [andb].
      + destruct (update m) as [m1 [[]|e]]; [left; reflexivity|discriminate].
      + right; right; destruct (cached F _ r (derived m)); cbn [fst snd bind] in H; [injection H as <- _|discriminate]; split; reflexivity.
    - destruct (solve o m) as [m1 [s|e]] eqn:Es; cbn [fst snd bind] in H; [|discriminate]; injection H as <- _.
      cbn [StatsState.renewed]; destruct (solve_same _ _ _ _ Es); auto.
    - unfold ModelState.read_solution in H; cbn [StatsState.renewed]; destruct (solution m) as [s0|] eqn:So; cbn [fst snd bind] in H.
      + injection H as <- _; right; right; split; reflexivity.
      + destruct (solve 2 m) as [m1 [s|e]] eqn:Es; cbn [fst snd bind] in H; [|discriminate]; injection H as <- _; destruct (solve_same _ _ _ _ Es); auto.
    - left; unfold ModelState.simulate in H; cbn [StatsState.renewed]; destruct o as [|o]; cbn [Nat.eqb] in *.
      + destruct (solution m) as [s0|] eqn:So.
        * unfold StatsState.updated; destruct (update m) as [m2 [[]|e]]; cbn [fst snd bind] in H; [reflexivity|discriminate].
        * destruct (solve 0 m) as [m1 [s|e]]; [|discriminate]; unfold StatsState.updated; destruct (update m1) as [m2 [[]|e]]; cbn [fst snd bind] in H; [apply orb_true_r|discriminate].
      + replace (match solution m with Some _ => false | None => false end) with false by (destruct (solution m); reflexivity).
        destruct (solve (S o) m) as [m1 [s|e]]; [|discriminate]; unfold StatsState.updated; destruct (update m1) as [m2 [[]|e]]; cbn [fst snd bind] in H; [apply orb_true_r|discriminate].
  Qed.

  (** ** Computations *)

  Definition fair {A} (x : M A) : Prop := forall st st' a, honest st -> x st = (st', Ok a) -> honest st'.
  (** A computation that says whether the state space is still the one before. *)
  Definition tells {A} (x : M (A * bool)) : Prop := forall st st' a, sure st -> x st = (st', Ok (a, true)) -> sure st'.

  Lemma fair_bind {A B} (x : M A) (f : A -> M B) : fair x -> (forall a, fair (f a)) -> fair (bnd x f).
  Proof.
    intros Hx Hf st st' b V; unfold StatsState.bnd; destruct (x st) as [s1 [a|e]] eqn:E; [|discriminate].
    exact (Hf a s1 st' b (Hx _ _ _ V E)).
  Qed.
  Lemma fair_read {A} (f : sstate -> res A) : fair (fun s => (s, f s)).
  Proof. intros st st' a V E; injection E as <- _; exact V. Qed.
  Lemma fair_lift {A} (r : res A) : fair (lift r).
  Proof. apply (fair_read (fun _ => r)). Qed.
  Lemma fair_ret {A} (a : A) : fair (StatsState.ret F a).
  Proof. apply (fair_read (fun _ => Ok a)). Qed.

  Lemma on_model_inv o st st' v b : on_model o st = (st', Ok (v, b)) ->
    step o (fst st) = (fst st', Ok v) /\ b = negb (renewed o (fst st)) /\ snd st' = if renewed o (fst st) then blank F else snd st.
  Proof.
    unfold StatsState.on_model; destruct (step o (fst st)) as [m' [w|e]]; cbn [fst snd bind]; [|discriminate]; intros H; injection H as <- <- <-; auto.
  Qed.
  Lemma fair_op o : fair (on_model o).
  Proof.
    intros st st' [v b] V E; destruct (on_model_inv _ _ _ _ _ E) as (E1 & _ & Em).
    destruct (step_same _ _ _ _ E1) as [R|[A|[D A]]]; [|left; exact A|].
    - right; left; rewrite Em, R; reflexivity.
    - destruct V as [V|[V|V]]; [left; congruence| |right; right; unfold checked; rewrite D; exact V].
      right; left; rewrite Em, V; destruct (renewed o (fst st)); reflexivity.
  Qed.
  Lemma op_tells o : (forall m m' v, step o m = (m', Ok v) -> altered m' = true -> altered m = true) -> tells (on_model o).
  Proof.
    intros No st st' v [A C] E; destruct (on_model_inv _ _ _ _ _ E) as (E1 & Eb & _).
    destruct (step_same _ _ _ _ E1) as [R|[A'|[D A']]]; [rewrite R in Eb; discriminate|exfalso; apply No in E1; congruence|].
    split; [congruence|unfold checked; rewrite D; exact C].
  Qed.
  Lemma ensure_alters b m m' r : ensure b m = (m', r) -> altered m' = true -> altered m = true.
  Proof.
    unfold ModelState.ensure; destruct b; intros H; [|injection H as <- _; auto].
    destruct (update_spec F P (r0 O) isnum _ _ space _ _ _ H) as (A & _); congruence.
  Qed.
  Lemma read_alters r m m' v : read r m = (m', v) -> altered m' = true -> altered m = true.
  Proof.
    unfold ModelState.read; destruct (ensure _ m) as [m1 [[]|e]] eqn:E; intros H; injection H as <- _; exact (ensure_alters _ _ _ _ E).
  Qed.
  Lemma finish_alters l m m' r : finish l m = (m', r) -> altered m' = true -> altered m = true.
  Proof. unfold ModelState.finish; destruct (solver_ _ _ _ _ _); intros H; injection H as <- _; auto. Qed.
  Lemma one_alters m m' r : solve_one m = (m', r) -> altered m' = true -> altered m = true.
  Proof.
    unfold ModelState.solve_one; destruct (ensure _ m) as [m1 [[]|e]] eqn:E; intros H A.
    - exact (ensure_alters _ _ _ _ E (finish_alters _ _ _ _ H A)).
    - injection H as <- _; exact (ensure_alters _ _ _ _ E A).
  Qed.
  Lemma solve_alters o m m' r : solve o m = (m', r) -> altered m' = true -> altered m = true.
  Proof.
    unfold ModelState.solve; cbn zeta; destruct (_ =? 1); [apply one_alters|]; destruct (_ =? 2); [|intros H; injection H as <- _; auto].
    unfold ModelState.solve_two; destruct (solve_one m) as [m1 [s1|e]] eqn:E1; [|intros H A; injection H as <- _; exact (one_alters _ _ _ E1 A)].
    destruct (ensure _ m1) as [m2 [[]|e]] eqn:E2; [|intros H A; injection H as <- _; exact (one_alters _ _ _ E1 (ensure_alters _ _ _ _ E2 A))].
    destruct (c_sigma _ _ (derived m2)); intros H A; apply (one_alters _ _ _ E1), (ensure_alters _ _ _ _ E2); [exact (finish_alters _ _ _ _ H A)|injection H as <- _; exact A].
  Qed.
  Lemma tells_read r : tells (on_model (Read r)).
  Proof. apply op_tells; intros m m' v; unfold ModelState.step, ok_with; intros H; injection H as <- _; destruct (read r m) eqn:E; exact (read_alters _ _ _ _ E). Qed.
  Lemma tells_readsolution : tells (on_model ReadSolution).
  Proof.
    apply op_tells; intros m m' v; unfold ModelState.step, ok_with, ModelState.read_solution; intros H; injection H as <- _; destruct (solution m); [auto|].
    destruct (solve 2 m) eqn:E; exact (solve_alters _ _ _ _ E).
  Qed.

  (** Reading the indexes or the state space of a model that is not altered changes nothing. *)
  Lemma read_still r st st' p : r <> RSigma -> altered (fst st) = false -> on_model (Read r) st = (st', Ok p) -> st' = st.
  Proof.
    intros N A; destruct st as [m c], p as [v b]; cbn [fst] in A; unfold StatsState.on_model, ModelState.step, ok_with, ModelState.read; cbn [fst snd].
    destruct r; try (elim N; reflexivity); cbn [StatsState.renewed]; rewrite A; cbn [ensure andb fst snd cached bind]; intros H; injection H as <- _ _; reflexivity.
  Qed.
  Lemma read_settles r st st' v b : on_model (Read r) st = (st', Ok (v, b)) -> altered (fst st') = false /\ (cached F _ r (derived (fst st')) = match v with OValue w => Ok w | _ => Err TypeErr end).
  Proof.
    intros E; destruct (on_model_inv _ _ _ _ _ E) as (E1 & _); unfold ModelState.step, ok_with, ModelState.read in E1.
    destruct (ensure _ (fst st)) as [m1 [[]|e]] eqn:Ee; cbn [fst snd bind] in E1; [|discriminate].
    destruct (cached F _ r (derived m1)) as [w|e] eqn:Ec; cbn [bind] in E1; [|discriminate]; injection E1 as E1 E2; subst v m1; split; [|exact Ec].
    unfold ModelState.ensure in Ee; destruct (match r with RSigma => _ | _ => _ end) eqn:En; [exact (update_settles _ _ Ee)|].
    injection Ee as <-; destruct r; try exact En; apply orb_false_iff in En; apply En.
  Qed.

  Lemma space_reads st st' sp : the_space st = (st', Ok sp) -> altered (fst st') = false /\ sp = c_space _ _ (derived (fst st')) /\ exists p, on_model (Read RSpace) st = (st', Ok p).
  Proof.
    unfold StatsState.the_space, StatsState.bnd; destruct (on_model (Read RSpace) st) as [s1 [[v b]|e]] eqn:E; [|discriminate].
    destruct (read_settles _ _ _ _ _ E) as [A C]; cbn [cached] in C; destruct v as [|w| |]; try discriminate C; injection C as <-; intros H; injection H as <- <-; eauto.
  Qed.
  Lemma indexes_reads st st' x : altered (fst st) = false -> the_indexes st = (st', Ok x) -> st' = st /\ x = c_index _ _ (derived (fst st)).
  Proof.
    intros A; unfold StatsState.the_indexes, StatsState.bnd; destruct (on_model (Read RIndexes) st) as [s1 [[v b]|e]] eqn:E; [|discriminate].
    destruct (read_settles _ _ _ _ _ E) as [_ C]; cbn [cached] in C; destruct v as [|w| |]; try discriminate C; injection C as <-; intros H; injection H as <- <-.
    assert (N : RIndexes <> RSigma) by discriminate; pose proof (read_still _ _ _ _ N A E) as ->; auto.
  Qed.
  Lemma fair_space : fair the_space.
  Proof. intros st st' sp V H; destruct (space_reads _ _ _ H) as (_ & _ & p & E); exact (fair_op _ _ _ _ V E). Qed.
  Lemma fair_indexes : fair the_indexes.
  Proof. apply fair_bind; [apply fair_op|]; intros [[| [] | |] b]; apply fair_lift || apply fair_ret. Qed.
  Lemma fair_solution : fair the_solution.
  Proof. apply fair_bind; [apply fair_op|]; intros [[| | |] b]; apply fair_lift || apply fair_ret. Qed.
  Lemma fair_stoch : fair (n_stoch F).
  Proof. apply (fair_read (fun s => Ok (List.length (d_stoch F (definition (fst s)))))). Qed.
  Lemma fair_sigma : fair the_sigma.
  Proof. apply fair_bind; [apply fair_op|]; intros [[| [] | |] b]; try apply fair_lift; apply fair_bind; [apply fair_stoch|intros k; apply fair_ret]. Qed.
  Lemma tells_solution : tells the_solution.
  Proof.
    intros st st' s S; unfold StatsState.the_solution, StatsState.bnd; destruct (on_model ReadSolution st) as [s1 [[v b]|e]] eqn:E; [|discriminate].
    destruct v; try discriminate; intros H; injection H as <- <- ->; exact (tells_readsolution _ _ _ S E).
  Qed.
  Lemma tells_sigma : tells the_sigma.
  Proof.
    intros st st' s S; unfold StatsState.the_sigma, StatsState.bnd; destruct (on_model (Read RSigma) st) as [s1 [[v b]|e]] eqn:E; [|discriminate].
    destruct v as [|[]| |]; try discriminate; unfold n_stoch, StatsState.ret; intros H; injection H as <- _ ->; exact (tells_read _ _ _ _ S E).
  Qed.

  (** Verification that raises nothing was passed. *)
  Lemma verify_sure st st' : honest st -> verify st = (st', Ok tt) -> sure st'.
  Proof.
    intros V; unfold StatsState.verify; unfold StatsState.bnd at 1; destruct (the_space st) as [s1 [sp|e]] eqn:E; [|discriminate].
    destruct (space_reads _ _ _ E) as (A & Esp & _); pose proof (fair_space _ _ _ V E) as V1.
    destruct (verified F (snd s1)) as [b|] eqn:Ev.
    - intros H; injection H as <-; split; [exact A|]; destruct V1 as [V1|[V1|V1]]; [congruence|rewrite V1 in Ev; discriminate|exact V1].
    - unfold StatsState.bnd; destruct (the_indexes s1) as [s2 [x|e]] eqn:Ei; [|discriminate]; destruct (indexes_reads _ _ _ A Ei) as [-> ->].
      intros H; injection H as <- R; split; [exact A|]; unfold checked; cbn [fst]; rewrite <- Esp; exact R.
  Qed.
  Lemma sure_honest st : sure st -> honest st.
  Proof. intros [_ C]; right; right; exact C. Qed.
  Lemma fair_verify : fair verify.
  Proof. intros st st' [] V H; apply sure_honest, (verify_sure _ _ V H). Qed.

  (** The transition and the variance are computed after it. *)
  Lemma transition_ok st st' v b : honest st -> the_transition st = (st', Ok (v, b)) -> honest st' /\ (b = true -> sure st').
  Proof.
    intros V; unfold StatsState.the_transition; unfold StatsState.bnd at 1; destruct (the_space st) as [s1 [sp|e]] eqn:E; [|discriminate].
    destruct (space_reads _ _ _ E) as (A & _ & _); pose proof (fair_space _ _ _ V E) as V1.
    destruct (transition F (snd s1)) as [w|] eqn:Et.
    - intros H; injection H as <- <- <-; split; [exact V1|intros _; split; [exact A|]]; destruct V1 as [V1|[V1|V1]]; [congruence|rewrite V1 in Et; discriminate|exact V1].
    - unfold StatsState.bnd; destruct (verify s1) as [s2 [[]|e]] eqn:Ev; [|discriminate]; pose proof (verify_sure _ _ V1 Ev) as S2.
      destruct (the_solution s2) as [s3 [[s b3]|e]] eqn:Es; [|discriminate].
      destruct (the_indexes s3) as [s4 [x|e]] eqn:Ei; [|discriminate]; cbn [fst snd]; unfold StatsState.lift at 1.
      destruct (kalman_transition F (Ok tt) (places F O x) (as_sim F s)) as [w|e]; [|discriminate].
      unfold StatsState.store_transition, StatsState.ret; cbn [fst snd]; intros H; injection H as <- <- <-; destruct b3.
      + pose proof (tells_solution _ _ _ S2 Es) as S3; destruct (indexes_reads _ _ _ (proj1 S3) Ei) as [-> _]; split; [|intros _; exact S3].
        right; right; exact (proj2 S3).
      + split; [|discriminate]; pose proof (fair_indexes _ _ _ (fair_solution _ _ _ (sure_honest _ S2) Es) Ei) as V4; destruct s4; exact V4.
  Qed.
  Lemma fair_transition : fair the_transition.
  Proof. intros st st' [v b] V H; exact (proj1 (transition_ok _ _ _ _ V H)). Qed.
  Lemma fair_variance : fair the_variance.
  Proof.
    intros st st' v V; unfold StatsState.the_variance; unfold StatsState.bnd at 1; destruct (the_space st) as [s1 [sp|e]] eqn:E; [|discriminate].
    pose proof (fair_space _ _ _ V E) as V1; destruct (variance F (snd s1)) as [w|]; [intros H; injection H as <- _; exact V1|].
    unfold StatsState.bnd; destruct (verify s1) as [s2 [[]|e]] eqn:Ev; [|discriminate]; pose proof (verify_sure _ _ V1 Ev) as S2.
    destruct (the_transition s2) as [s3 [[t b]|e]] eqn:Et; [|discriminate]; destruct (transition_ok _ _ _ _ (sure_honest _ S2) Et) as [V3 S3].
    destruct (the_sigma s3) as [s4 [[sg b']|e]] eqn:Es; [|discriminate]; pose proof (fair_sigma _ _ _ V3 Es) as V4; cbn [fst snd]; unfold StatsState.lift at 1.
    destruct (do Q <- _; lyapunov F lyap (fst t) Q) as [w|e]; [|discriminate].
    unfold StatsState.store_variance, StatsState.ret; cbn [fst snd]; intros H; injection H as <- _.
    destruct b; cbn [andb]; [|destruct s4; exact V4]; destruct b'; [|destruct s4; exact V4].
    pose proof (tells_sigma _ _ _ (S3 eq_refl) Es) as S4; right; right; exact (proj2 S4).
  Qed.
  Lemma fair_steady : fair the_steady.
  Proof. apply fair_bind; [apply fair_op|]; intros p; apply fair_read. Qed.

  Ltac fairly := repeat first
    [ apply fair_solution | apply fair_indexes | apply fair_space | apply fair_sigma | apply fair_verify | apply fair_transition | apply fair_variance
    | apply fair_steady | apply fair_stoch | apply fair_lift | apply fair_ret | apply fair_bind; [|intros ?] | apply fair_read ].
  Lemma fair_cov : fair cov.
  Proof. unfold StatsState.cov; fairly. Qed.
  Lemma fair_autocov p : fair (autocov p).
  Proof. unfold StatsState.autocov; fairly. Qed.
  Lemma fair_tail l s : fair (mean_tail l s).
  Proof. unfold StatsState.mean_tail; destruct (as_sim F (fst s)); fairly. Qed.
  Lemma fair_ask q : fair (ask q).
  Proof.
    destruct q; cbn [StatsState.ask]; (apply fair_bind; [|intros a; apply fair_ret]).
    - apply fair_bind; [apply fair_steady|intros l]; apply fair_bind; [apply fair_solution|apply fair_tail].
    - unfold StatsState.var; fairly; apply fair_cov.
    - unfold StatsState.std, StatsState.var; fairly; apply fair_cov.
    - apply fair_cov.
    - unfold StatsState.corr; fairly; apply fair_cov.
    - apply fair_autocov.
    - unfold StatsState.autocorr, StatsState.std, StatsState.var; fairly; (apply fair_cov || apply fair_autocov).
    - apply fair_bind; [apply fair_stoch|]; intros n st st' b G; destruct (n =? 1); [intros E; injection E as <- _; exact G|].
      revert st st' b G; change (fair shares); unfold StatsState.shares; fairly.
    - apply fair_transition.
    - apply fair_variance.
    - apply fair_verify.
  Qed.
  Lemma fair_step o : fair (sstep o).
  Proof. destruct o; cbn [StatsState.sstep]; apply fair_bind; [apply fair_op|intros; apply fair_ret|apply fair_ask|intros; apply fair_ret]. Qed.

  (** ** Histories *)
  Lemma run_honest os : forall st st' l, srun os st = (st', l) -> all_made F l -> mended F l ->
    (honest st \/ exists o r, In (Do o, r) l /\ addition F o) -> honest st'.
  Proof.
    induction os as [|o os IH]; intros st st' l H A R I; cbn [StatsState.srun] in H.
    - injection H as <- <-; destruct I as [I|(o & r & [] & _)]; exact I.
    - destruct (sstep o st) as [s1 r] eqn:E1; destruct (srun os s1) as [s2 l2] eqn:E2; injection H as <- <-.
      apply (IH s1 s2 l2 E2).
      + intros o' e Hin; apply (A o' e); right; exact Hin.
      + intros l1 o' e l3 E; apply (R ((o, r) :: l1) o' e l3); rewrite E; reflexivity.
      + destruct r as [w|e]; [|right; apply (R [] o e l2); reflexivity].
        destruct I as [I|(o' & r' & [E|Hin] & Ha)]; [left; exact (fair_step _ _ _ _ I E1)| |right; eauto].
        injection E as -> _; left; left; destruct (do_inv F O P ltb isnum nan minimize rank lyap lsolve chol_low sqrt abs truthy float_of trunc parse_text keeps space solver_ _ _ _ _ E1) as (v & b & _ & E & _).
        exact (proj1 (add_alters F O P isnum truthy float_of trunc parse_text keeps space solver_ _ _ _ _ Ha E)).
  Qed.
End Passing.

(** ** Answers *)

Section Answered.
  Variable F : Type.
  Variable O : rops F.
  Variable P : ops F.
  Variable ltb : F -> F -> bool.
  Variable isnum : F -> bool.
  Variable nan : F.
  Variable minimize : solver -> (list F -> res F) -> list F -> res (list F).
  Variable rank : nat -> nat -> mat F -> nat.
  Variable lyap : nat -> mat F -> mat F -> res (mat F).
  Variable lsolve : nat -> mat F -> vec F -> res (vec F).
  Variable chol_low : nat -> mat F -> res (mat F).
  Variable sqrt abs : F -> F.
  Variable truthy : F -> bool.
  Variable float_of : text -> option F.
  Variable trunc : F -> option Z.
  Variable parse_text : text -> res (ast F).
  Variable keeps : bool.
  Variable space : list (option F) -> steady_repr F -> repr F -> res (space_of F).
  Variable solver_ : option (rules F * matrix F) -> list (option F) -> steady_repr F -> repr F -> space_of F -> res (rules F).

  Notation mstate := (ModelState.mstate F (space_of F) (rules F)).
  Notation sstate := (StatsState.sstate F).
  Notation M := (StatsState.M F).
  Notation update := (ModelState.update F P (r0 O) isnum (space_of F) (rules F) space).
  Notation ensure := (ModelState.ensure F P (r0 O) isnum (space_of F) (rules F) space).
  Notation read := (ModelState.read F P (r0 O) isnum (space_of F) (rules F) space).
  Notation finish := (ModelState.finish F (space_of F) (rules F) solver_).
  Notation solve := (ModelState.solve F P (r0 O) isnum (space_of F) (rules F) space solver_).
  Notation solve_one := (ModelState.solve_one F P (r0 O) isnum (space_of F) (rules F) space solver_).
  Notation step := (ModelState.step F P (r0 O) (r1 O) truthy isnum float_of trunc parse_text keeps (space_of F) (rules F) space solver_).
  Notation definition := (ModelState.definition F (space_of F) (rules F)).
  Notation derived := (ModelState.derived F (space_of F) (rules F)).
  Notation altered := (ModelState.altered F (space_of F) (rules F)).
  Notation solution := (ModelState.solution F (space_of F) (rules F)).
  Notation no_sigma := (ModelState.no_sigma F (space_of F) (rules F)).
  Notation updated := (StatsState.updated F O P isnum space).
  Notation renewed := (StatsState.renewed F O P isnum space solver_).
  Notation solve_renews := (StatsState.solve_renews F O P isnum space solver_).
  Notation on_model := (StatsState.on_model F O P isnum truthy float_of trunc parse_text keeps space solver_).
  Notation the_solution := (StatsState.the_solution F O P isnum truthy float_of trunc parse_text keeps space solver_).
  Notation the_indexes := (StatsState.the_indexes F O P isnum truthy float_of trunc parse_text keeps space solver_).
  Notation the_space := (StatsState.the_space F O P isnum truthy float_of trunc parse_text keeps space solver_).
  Notation the_sigma := (StatsState.the_sigma F O P isnum truthy float_of trunc parse_text keeps space solver_).
  Notation the_steady := (StatsState.the_steady F O P isnum nan minimize truthy float_of trunc parse_text keeps space solver_).
  Notation mean_tail := (StatsState.mean_tail F O P ltb isnum rank lyap lsolve truthy float_of trunc parse_text keeps space solver_).
  Notation run_verification := (StatsState.run_verification F O ltb rank).
  Notation verify := (StatsState.verify F O P ltb isnum rank truthy float_of trunc parse_text keeps space solver_).
  Notation the_transition := (StatsState.the_transition F O P ltb isnum rank truthy float_of trunc parse_text keeps space solver_).
  Notation the_variance := (StatsState.the_variance F O P ltb isnum rank lyap truthy float_of trunc parse_text keeps space solver_).
  Notation cov := (StatsState.cov F O P ltb isnum rank lyap truthy float_of trunc parse_text keeps space solver_).
  Notation autocov := (StatsState.autocov F O P ltb isnum rank lyap truthy float_of trunc parse_text keeps space solver_).
  Notation shares := (StatsState.shares F O P ltb isnum rank lyap chol_low abs truthy float_of trunc parse_text keeps space solver_).
  Notation ask := (StatsState.ask F O P ltb isnum nan minimize rank lyap lsolve chol_low sqrt abs truthy float_of trunc parse_text keeps space solver_).
  Notation sstep := (StatsState.sstep F O P ltb isnum nan minimize rank lyap lsolve chol_low sqrt abs truthy float_of trunc parse_text keeps space solver_).
  Notation srun := (StatsState.srun F O P ltb isnum nan minimize rank lyap lsolve chol_low sqrt abs truthy float_of trunc parse_text keeps space solver_).
  Notation bnd := (StatsState.bnd F).
  Notation lift := (StatsState.lift F).

  Notation good := (StatsStateProofs.good F O P isnum lyap space).
  Notation settled := (StatsStateProofs2.settled F O P isnum lyap space solver_).
  Notation inv := (StatsStateProofs2.inv F O P isnum lyap space solver_).
  Notation unsolved := (StatsStateProofs2.unsolved F O P isnum lyap space solver_).
  Notation answered := (StatsStateProofs2.answered F O P isnum lyap sqrt).
  Notation ensures := (StatsStateProofs.ensures F O P isnum lyap space).
  Notation checked := (StatsVerified.checked F O ltb rank).
  Notation honest := (StatsVerified.honest F O ltb rank).
  Notation fair := (StatsVerified.fair F O ltb rank).
  Hypothesis Hfirst : forall is st dy sp s, solver_ None is st dy sp = Ok s -> exists gy gu, s = Pipeline.First gy gu.
  Hypothesis Hsecond : forall gy gu sg is st dy sp s, solver_ (Some (Pipeline.First gy gu, sg)) is st dy sp = Ok s -> holds_arrays F gy gu s.

  Section Reach.
    Variable d0 : defs F.
    Variable X : indexes.
    Variable gy gu : nd F.
    (** The computation passes a state whose state space passes verification. *)
    Definition reach {A} (x : M A) : Prop :=
      forall st st' a, good d0 X gy gu st -> honest st -> x st = (st', Ok a) -> exists st1, good d0 X gy gu st1 /\ checked (fst st1).
    Lemma reach_first {A B} (x : M A) (f : A -> M B) : reach x -> reach (bnd x f).
    Proof.
      intros H st st' b G V; unfold StatsState.bnd; destruct (x st) as [s1 [a|e]] eqn:E; [|discriminate]; intros _; exact (H _ _ _ G V E).
    Qed.
    Lemma reach_then {A B} (x : M A) (f : A -> M B) Q : ensures d0 X gy gu x Q -> fair x -> (forall a, Q a -> reach (f a)) -> reach (bnd x f).
    Proof.
      intros H Hx Hf st st' b G V; unfold StatsState.bnd; destruct (x st) as [s1 [a|e]] eqn:E; [|discriminate]; destruct (H _ _ _ G E) as [G1 Qa].
      exact (Hf a Qa _ _ _ G1 (Hx _ _ _ V E)).
    Qed.
    Lemma reach_verify : reach verify.
    Proof.
      intros st st' [] G V E; exists st'; split; [exact (proj1 (ens_verify _ _ _ _ _ _ _ _ _ _ _ _ _ _ _ _ _ _ _ _ _ G E))|].
      exact (proj2 (verify_sure _ _ _ _ _ _ _ _ _ _ _ _ _ _ _ V E)).
    Qed.
    Lemma reach_variance : reach the_variance.
    Proof.
      intros st st' v G V; unfold StatsState.the_variance; unfold StatsState.bnd at 1; destruct (the_space st) as [s1 [sp|e]] eqn:E; [|discriminate].
      pose proof (fair_space _ _ _ ltb _ rank _ _ _ _ _ _ _ _ _ _ V E) as V1; destruct (space_reads _ _ _ _ _ _ _ _ _ _ _ _ _ _ E) as (A & _ & _).
      destruct (ens_space _ _ _ _ _ _ _ _ _ _ _ _ _ _ _ _ _ _ _ G E) as [G1 _].
      destruct (variance F (snd s1)) as [w|] eqn:Ew.
      - intros _; exists s1; split; [exact G1|]; destruct V1 as [V1|[V1|V1]]; [congruence|rewrite V1 in Ew; discriminate|exact V1].
      - apply (reach_first _ _ reach_verify _ _ _ G1 V1).
    Qed.
    Lemma reach_cov : reach cov.
    Proof.
      unfold StatsState.cov; eapply reach_then; [apply ens_solution|apply fair_solution|]; intros s _.
      eapply reach_then; [apply ens_indexes|apply fair_indexes|]; intros x _.
      apply (reach_then _ _ (fun _ => True)); [apply ens_lift; auto|apply fair_lift|]; intros g _; apply reach_first, reach_variance.
    Qed.
    Lemma reach_autocov p : reach (autocov p).
    Proof.
      unfold StatsState.autocov; eapply reach_then; [apply ens_solution|apply fair_solution|]; intros s _; apply reach_first, reach_variance.
    Qed.
    Lemma reach_transition : reach the_transition.
    Proof.
      intros st st' v G V; unfold StatsState.the_transition; unfold StatsState.bnd at 1; destruct (the_space st) as [s1 [sp|e]] eqn:E; [|discriminate].
      pose proof (fair_space _ _ _ ltb _ rank _ _ _ _ _ _ _ _ _ _ V E) as V1; destruct (space_reads _ _ _ _ _ _ _ _ _ _ _ _ _ _ E) as (A & _ & _).
      destruct (ens_space _ _ _ _ _ _ _ _ _ _ _ _ _ _ _ _ _ _ _ G E) as [G1 _].
      destruct (transition F (snd s1)) as [w|] eqn:Ew.
      - intros _; exists s1; split; [exact G1|]; destruct V1 as [V1|[V1|V1]]; [congruence|rewrite V1 in Ew; discriminate|exact V1].
      - apply (reach_first _ _ reach_verify _ _ _ G1 V1).
    Qed.
    Lemma reach_space q : q = Verify \/ q = Transition \/ q = StateVariance -> reach (ask q).
    Proof.
      intros [->|[->| ->]]; cbn [StatsState.ask]; apply reach_first; [apply reach_verify|apply reach_transition|apply reach_variance].
    Qed.
    Lemma reach_decomposition st st' a : good d0 X gy gu st -> honest st -> List.length (d_stoch F (definition (fst st))) <> 1 ->
      ask Shares st = (st', Ok a) -> exists st1, good d0 X gy gu st1 /\ checked (fst st1).
    Proof.
      intros G V N; cbn [StatsState.ask]; unfold StatsState.bnd, StatsState.decomposition; unfold StatsState.bnd at 1; unfold n_stoch at 1.
      destruct (List.length (d_stoch F (definition (fst st))) =? 1) eqn:E; [apply Nat.eqb_eq in E; contradiction|].
      destruct (shares st) as [s1 [v|e]] eqn:Es; [|discriminate]; intros _; revert st s1 v G V N E Es.
      enough (R : reach shares) by (intros st s1 v G V _ _ Es; exact (R _ _ _ G V Es)).
      unfold StatsState.shares; eapply reach_then; [apply ens_solution|apply fair_solution|]; intros s _.
      eapply reach_then; [apply ens_indexes|apply fair_indexes|]; intros x _.
      apply (reach_then _ _ (fun _ => True)); [apply ens_lift; auto|apply fair_lift|]; intros g _.
      apply (reach_then _ _ (fun _ => True)); [apply ens_lift; auto|apply fair_lift|]; intros h _; apply reach_first, reach_transition.
    Qed.
    Lemma reach_ask q : second_moment q -> reach (ask q).
    Proof.
      destruct q; intros Q; try contradiction; cbn [StatsState.ask]; apply reach_first.
      - apply reach_first, reach_cov.
      - apply reach_first, reach_first, reach_cov.
      - apply reach_cov.
      - apply reach_first, reach_cov.
      - apply reach_autocov.
      - apply reach_first, reach_autocov.
    Qed.
    Lemma checked_alike st1 st2 : good d0 X gy gu st1 -> good d0 X gy gu st2 -> checked (fst st1) -> checked (fst st2).
    Proof.
      intros [_ C1 S1 I1 _ _] [_ C2 S2 I2 _ _] C; unfold StatsVerified.checked in *; rewrite I2, <- I1.
      pose proof (proj1 (fresh_similar F _ space _ _ _ _ _ _ (similar_trans F _ _ _ (similar_sym F _ _ S1) S2)) (proj1 C1)) as Fr.
      destruct (fresh_fun F _ space _ _ _ _ _ _ _ _ _ _ _ _ _ Fr (proj1 C2)) as (_ & _ & _ & E); rewrite E; exact C.
    Qed.
  End Reach.

  (** A question that solves the model, goes on as if it had been solved. *)
  Definition starts {A} (x : M A) : Prop := forall st st' a, unsolved st -> honest st -> x st = (st', Ok a) -> exists st1, settled st1 /\ honest st1 /\ x st1 = (st', Ok a).
  Lemma starts_first {B} (g : rules F * bool -> M B) : (forall s b, g (s, b) = g (s, true)) -> starts (bnd the_solution g).
  Proof using All.
    intros Hg st st' a U V; unfold StatsState.bnd at 1; destruct (the_solution st) as [st1 [[s b]|e]] eqn:E; [|discriminate].
    destruct (solution_first F O P ltb isnum nan minimize rank lyap lsolve chol_low sqrt abs truthy float_of trunc parse_text keeps space solver_ Hfirst Hsecond _ _ _ _ U E) as [S1 E1].
    intros H; exists st1; split; [exact S1|]; split; [exact (fair_solution _ _ _ _ _ _ _ _ _ _ _ _ _ _ _ _ V E)|].
    unfold StatsState.bnd; rewrite E1, <- (Hg s b); exact H.
  Qed.
  Lemma starts_bind {A B} (x : M A) (f : A -> M B) : starts x -> starts (bnd x f).
  Proof.
    intros H st st' b U V; unfold StatsState.bnd at 1; destruct (x st) as [s1 [a|e]] eqn:E; [|discriminate].
    destruct (H _ _ _ U V E) as (st1 & S1 & V1 & E1); intros Hb; exists st1; split; [exact S1|]; split; [exact V1|]; unfold StatsState.bnd; rewrite E1; exact Hb.
  Qed.
  Lemma starts_ask q : second_moment q -> starts (ask q).
  Proof using All.
    assert (C : starts cov) by (apply starts_first; intros s b; reflexivity).
    assert (D : forall p, starts (autocov p)) by (intros p; apply starts_first; intros s b; reflexivity).
    destruct q; intros Q; try contradiction; cbn [StatsState.ask]; apply starts_bind;
      first [exact C|exact (D _)|apply starts_bind, C|apply starts_bind, starts_bind, C|apply starts_bind, D].
  Qed.

  (** The state space passes verification, if a question in time is answered. *)
  Lemma ask_passed ph q st st' a d0 x gy gu : inv ph st -> honest st -> in_time ph q -> second_moment q -> ask q st = (st', Ok a) ->
    good d0 x gy gu st' -> checked (fst st').
  Proof using All.
    intros I V T Q H G'; assert (S : exists st1, settled st1 /\ honest st1 /\ ask q st1 = (st', Ok a)).
    { destruct ph; [exact (starts_ask q Q _ _ _ I V H)|contradiction|exists st; split; [apply I|split; [exact V|exact H]]]. }
    destruct S as (st1 & (d1 & x1 & gy1 & gu1 & B & G) & V1 & E).
    destruct (reach_ask d1 x1 gy1 gu1 q Q _ _ _ G V1 E) as (s2 & G2 & C2).
    refine (checked_alike d1 x1 gy1 gu1 s2 st' G2 _ C2).
    exact (proj1 (calm_ask F O P ltb isnum nan minimize rank lyap lsolve chol_low sqrt abs truthy float_of trunc parse_text keeps space solver_ _ _ _ _ q _ _ _ G E)).
  Qed.
End Answered.
