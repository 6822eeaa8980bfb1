(** Variance decompositions and means of a settled model are those of Moments.v. *)
From Verif Require Import Base Syntax Lexer Parser Eval Semantics Factory Indexing DynFunc Vars ExprList ModelState ModelStateSpec ModelStateProofs ModelStateProofs2
  Nd Mat Linearize Steady SteadyValues FirstOrder SecondOrder Pipeline Sim Moments PathSim StatsState StatsStateProofs.

Section Settled.
  Variable F : Type.
  Variable O : rops F.
  Variable P : ops F.
  Variable ltb : F -> F -> bool.
  Variable isnum : F -> bool.
  Variable nan : F.
  Variable minimize : solver -> (list F -> res F) -> list F -> res (list F).
  Variable rank : nat -> nat -> mat F -> nat.
  Variable lyap : nat -> mat F -> mat F -> res (mat F).
  Variable lsolve : nat -> mat F -> vec F -> res (vec F).
  Variable chol_low : nat -> mat F -> res (mat F).
  Variable sqrt abs : F -> F.
  Variable truthy : F -> bool.
  Variable float_of : text -> option F.
  Variable trunc : F -> option Z.
  Variable parse_text : text -> res (ast F).
  Variable keeps : bool.
  Variable space : list (option F) -> steady_repr F -> repr F -> res (space_of F).
  Variable solver_ : option (rules F * matrix F) -> list (option F) -> steady_repr F -> repr F -> space_of F -> res (rules F).

  Notation mstate := (ModelState.mstate F (space_of F) (rules F)).
  Notation sstate := (StatsState.sstate F).
  Notation memo := (StatsState.memo F).
  Notation M := (StatsState.M F).
  Notation update := (ModelState.update F P (r0 O) isnum (space_of F) (rules F) space).
  Notation solve := (ModelState.solve F P (r0 O) isnum (space_of F) (rules F) space solver_).
  Notation solve_one := (ModelState.solve_one F P (r0 O) isnum (space_of F) (rules F) space solver_).
  Notation solve_two := (ModelState.solve_two F P (r0 O) isnum (space_of F) (rules F) space solver_).
  Notation step := (ModelState.step F P (r0 O) (r1 O) truthy isnum float_of trunc parse_text keeps (space_of F) (rules F) space solver_).
  Notation definition := (ModelState.definition F (space_of F) (rules F)).
  Notation derived := (ModelState.derived F (space_of F) (rules F)).
  Notation altered := (ModelState.altered F (space_of F) (rules F)).
  Notation solution := (ModelState.solution F (space_of F) (rules F)).
  Notation no_sigma := (ModelState.no_sigma F (space_of F) (rules F)).
  Notation consistent := (ModelStateProofs.consistent F P (r0 O) isnum (space_of F) (rules F) space).
  Notation similar := (ModelStateProofs.similar F).
  Notation fresh_of := (ModelStateProofs.fresh_of F (space_of F) space).
  Notation sigma_for := (define_sigma F (r0 O) P isnum).
  Notation updated := (StatsState.updated F O P isnum space).
  Notation renewed := (StatsState.renewed F O P isnum space solver_).
  Notation on_model := (StatsState.on_model F O P isnum truthy float_of trunc parse_text keeps space solver_).
  Notation the_solution := (StatsState.the_solution F O P isnum truthy float_of trunc parse_text keeps space solver_).
  Notation the_indexes := (StatsState.the_indexes F O P isnum truthy float_of trunc parse_text keeps space solver_).
  Notation the_space := (StatsState.the_space F O P isnum truthy float_of trunc parse_text keeps space solver_).
  Notation the_sigma := (StatsState.the_sigma F O P isnum truthy float_of trunc parse_text keeps space solver_).
  Notation verify := (StatsState.verify F O P ltb isnum rank truthy float_of trunc parse_text keeps space solver_).
  Notation the_transition := (StatsState.the_transition F O P ltb isnum rank truthy float_of trunc parse_text keeps space solver_).
  Notation the_variance := (StatsState.the_variance F O P ltb isnum rank lyap truthy float_of trunc parse_text keeps space solver_).
  Notation cov := (StatsState.cov F O P ltb isnum rank lyap truthy float_of trunc parse_text keeps space solver_).
  Notation autocov := (StatsState.autocov F O P ltb isnum rank lyap truthy float_of trunc parse_text keeps space solver_).
  Notation shares := (StatsState.shares F O P ltb isnum rank lyap chol_low abs truthy float_of trunc parse_text keeps space solver_).
  Notation mean := (StatsState.mean F O P ltb isnum nan minimize rank lyap lsolve truthy float_of trunc parse_text keeps space solver_).
  Notation ask := (StatsState.ask F O P ltb isnum nan minimize rank lyap lsolve chol_low sqrt abs truthy float_of trunc parse_text keeps space solver_).
  Notation bnd := (StatsState.bnd F).
  Notation lift := (StatsState.lift F).

  (** The definitions (up to the lead-lag sets), their index, and the arrays of the solution. *)
  Variable d0 : defs F.
  Variable X : indexes.
  Variable gy gu : nd F.
  Notation sol := (Sim.First gy gu).
  Notation k := (List.length (d_stoch F d0)).
  (** What the state space would compute. *)
  Definition variance_for (sg : matrix F) (AB : nd F * nd F) : res (nd F) :=
    do Q <- mm3 F O (snd AB) (M2 k k sg) (ntrans F (snd AB)); lyapunov F lyap (fst AB) Q.
  Notation ensures := (StatsStateProofs.ensures F O P isnum lyap space d0 X gy gu).
  Notation decomposition := (StatsState.decomposition F O P ltb isnum rank lyap chol_low abs truthy float_of trunc parse_text keeps space solver_).
  Notation model_of := (StatsStateProofs.model_of F d0 X).
  Notation good := (StatsStateProofs.good F O P isnum lyap space d0 X gy gu).

  Lemma good_size st : good st -> List.length (d_endog F (definition (fst st))) = List.length (d_endog F d0).
  Proof. intros G; rewrite <- (map_length ev_name), (proj1 (similar_names F _ _ (g_sim _ _ _ _ _ _ _ _ _ _ _ G))), map_length; reflexivity. Qed.
  Lemma good_stoch st : good st -> d_stoch F (definition (fst st)) = d_stoch F d0.
  Proof. intros G; apply sim_stoch, (g_sim _ _ _ _ _ _ _ _ _ _ _ G). Qed.

  Lemma ens_shares : ensures shares (fun a => exists sg, sigma_for (d_stoch F d0) = Ok sg /\
    forall ss, List.length ss = List.length (d_endog F d0) -> Moments.shares F O lyap chol_low abs (Ok tt) (model_of ss sg) sol = Ok a).
  Proof.
    apply (ens_bind _ _ _ _ _ _ _ _ _ _ _ _ _ _ (ens_solution _ _ _ _ _ _ _ _ _ _ _ _ _ _ _ _)); intros [s b] [Hs _]; cbn [fst snd] in *.
    apply (ens_bind _ _ _ _ _ _ _ _ _ _ _ _ _ _ (ens_indexes _ _ _ _ _ _ _ _ _ _ _ _ _ _ _ _)); intros x ->.
    destruct Hs as [Hy Hu]; rewrite Hy, Hu.
    eapply ens_bind; [apply (ens_lift _ _ _ _ _ _ _ _ _ _ _ (fun w => take F (dc_order F (places F O X)) (ensure2 F gy) = Ok w)); intros ? HH; exact HH|]; intros ty Hty.
    eapply ens_bind; [apply (ens_lift _ _ _ _ _ _ _ _ _ _ _ (fun w => take F (dc_order F (places F O X)) (ensure2 F gu) = Ok w)); intros ? HH; exact HH|]; intros tu Htu.
    apply (ens_bind _ _ _ _ _ _ _ _ _ _ _ _ _ _ (ens_transition _ _ _ _ _ _ _ _ _ _ _ _ _ _ _ _ _ _)); intros [AB b'] [Hk _]; cbn [fst snd] in *.
    apply (ens_bind _ _ _ _ _ _ _ _ _ _ _ _ _ _ (ens_sigma _ _ _ _ _ _ _ _ _ _ _ _ _ _ _ _)); intros [S b''] (sg & E & Es); cbn [fst snd] in *; subst S.
    intros st st' a G H; unfold StatsState.bnd, n_stoch in H; injection H as <- H; split; [exact G|]; exists sg; split; [exact Es|]; intros ss Ls.
    rewrite (good_stoch st G), (good_size st G), <- Ls in H.
    unfold Moments.shares, StatsStateProofs.model_of; cbn [m_shocks m_ss]; rewrite map_length; cbn [gy_first gu_first].
    change (dc_order F (SModel ss (dr_order X) (members is_state (dr X)) (map sv_name (d_stoch F d0)) sg)) with (dc_order F (places F O X)).
    rewrite Hty; cbn [bind]; rewrite Htu; cbn [bind].
    change (kalman_transition F (Ok tt) (SModel ss (dr_order X) (members is_state (dr X)) (map sv_name (d_stoch F d0)) sg) sol) with (kalman_transition F (Ok tt) (places F O X) sol).
    rewrite Hk; cbn [bind]; exact H.
  Qed.
  Lemma ens_decomposition : ensures decomposition (fun a =>
    (k = 1 -> a = M2 (List.length (d_endog F d0)) 1 (fun _ _ => r1 O)) /\
    (k <> 1 -> exists sg, sigma_for (d_stoch F d0) = Ok sg /\
       forall ss, List.length ss = List.length (d_endog F d0) -> Moments.shares F O lyap chol_low abs (Ok tt) (model_of ss sg) sol = Ok a)).
  Proof.
    intros st st' a G; unfold StatsState.decomposition; unfold StatsState.bnd at 1; unfold n_stoch at 1; rewrite (good_stoch st G).
    destruct (Nat.eqb_spec k 1) as [E|N].
    - intros H; injection H as <- <-; split; [exact G|]; split; [intros _; rewrite (good_size st G); reflexivity|intros N; contradiction].
    - intros H; destruct (ens_shares _ _ _ G H) as [G' Q]; split; [exact G'|]; split; [intros E; contradiction|intros _; exact Q].
  Qed.
End Settled.
