(** Proofs for C92: the structures of a model, its solution, and the equations. *)
From Verif Require Import Base Syntax Lexer LexerSpec Parser ParserSpec ModFileSpec ModFileProofs PropParser Eval EvalSpec EvalProofs PropEval Semantics SemanticsSpec SemanticsProofs
  Factory FactorySpec FactoryProofs PropFile Calib CalibSpec CalibProofs FileCalibProofs Indexing IndexingSpec DynFunc DynSpec PropDyn Vars ExprList
  ModelState ModelStateSpec ModelStateProofs ModelStateProofs2 PropModel OutlineSpec OutlineProofs PropOutline
  Nd Mat SimSpec OrderProofs CalcSpec CalcProofs Linearize LinearizeSpec LinearizeProofs Steady SteadyValues SteadyValuesSpec PropSteadyValues
  FirstOrder FirstOrderSpec SylvesterSpec SecondOrder SecondOrderSpec PropAccuracy AccuracySpec Pipeline PipelineSpec.

(** ** The covariance matrix is symmetric *)
Section Sigma.
  Variable V : Type.
  Variable zero : V.
  Variable O : ops V.
  Variable isnum : V -> bool.
  Definition even_matrix (m : matrix V) : Prop := forall i j, m i j = m j i.

  Lemma put_row_at i (jv : list (nat * V)) : forall m a b,
    fold_left (fun m p => put V i (fst p) (snd p) m) jv m a b =
    if a =? i then match find (fun p => b =? fst p) (rev jv) with Some p => snd p | None => m a b end else m a b.
  Proof.
    induction jv as [|[j v] jv IH] using rev_ind; intros m a b; [cbn; destruct (a =? i); reflexivity|].
    rewrite fold_left_app, rev_app_distr; cbn [fold_left app find rev fst snd]; unfold put at 1; rewrite IH.
    destruct (a =? i); cbn [andb]; [|reflexivity]; destruct (b =? j); reflexivity.
  Qed.
  Lemma put_col_at i (jv : list (nat * V)) : forall m a b,
    fold_left (fun m p => put V (fst p) i (snd p) m) jv m a b =
    if b =? i then match find (fun p => a =? fst p) (rev jv) with Some p => snd p | None => m a b end else m a b.
  Proof.
    induction jv as [|[j v] jv IH] using rev_ind; intros m a b; [cbn; destruct (b =? i); reflexivity|].
    rewrite fold_left_app, rev_app_distr; cbn [fold_left app find rev fst snd]; unfold put at 1; rewrite IH.
    destruct (b =? i), (a =? j); reflexivity.
  Qed.
  Lemma put_both_even i jv m : even_matrix m -> even_matrix (put_both V i jv m).
  Proof.
    intros H a b; unfold put_both; rewrite !put_col_at, !put_row_at.
    destruct (Nat.eqb_spec a i) as [->|Na], (Nat.eqb_spec b i) as [->|Nb]; try reflexivity.
    - rewrite H; reflexivity.
    - rewrite H; reflexivity.
    - apply H.
  Qed.
  Lemma shock_even names m ik m' : even_matrix m -> sigma_shock V O isnum names m ik = Ok m' -> even_matrix m'.
  Proof.
    intros H E; destruct ik as [i k]; cbn [sigma_shock] in E; apply bind_ok in E as (m1 & E1 & E2); injection E2 as <-.
    assert (H1 : even_matrix m1).
    { destruct (Vars.number V isnum (sv_corr k)); [|injection E1 as <-; exact H]; apply bind_ok in E1 as (jv & _ & E1); injection E1 as <-; apply put_both_even, H. }
    destruct (Vars.number V isnum (sv_cov k)); [apply put_both_even, H1|exact H1].
  Qed.
  Lemma sigma_even stoch m : define_sigma V zero O isnum stoch = Ok m -> even_matrix m.
  Proof.
    unfold define_sigma; cbn zeta; set (m0 := fold_left _ (enumerate stoch) _).
    assert (H : even_matrix m0).
    { assert (G : forall l n, even_matrix n -> even_matrix (fold_left (fun m (ik : nat * svar V) => match Vars.number V isnum (sv_variance (snd ik)) with Some v => put V (fst ik) (fst ik) v m | None => m end) l n)).
      { induction l as [|a l IH]; intros n Hn; cbn [fold_left]; [exact Hn|]; apply IH; destruct (Vars.number V isnum (sv_variance (snd a))); [|exact Hn].
        intros i j; unfold put; rewrite (Hn i j), (andb_comm (j =? _)); reflexivity. }
      apply G; intros i j; reflexivity. }
    clearbody m0; revert m0 H; induction (enumerate stoch) as [|a l IH]; intros m0 H E; cbn [foldM] in E; [injection E as <-; exact H|].
    apply bind_ok in E as (m1 & E1 & E); apply (IH m1 (shock_even _ _ _ _ H E1) E).
  Qed.
End Sigma.

(** ** The equations of a file *)
Section File.
  Variable F : Type.
  Variable float_of : text -> option F.
  Variable trunc : F -> option Z.
  Variable nzero : F.

  Lemma equation_functions t (f : modfile F) tag l r :
    parse_file F float_of trunc nzero t = Ok f -> In (SEq tag l r) (m_stmts f) ->
    functions F (fun g => In g reserved_funcs) l /\ functions F (fun g => In g reserved_funcs) r.
  Proof.
    intros H Hin; unfold parse_file in H; apply bind_ok in H as (ts & Ht & H); apply tokenize_known in Ht; apply parse_model_iff in H.
    inversion H as [ds ps args stmts bs tp ta tm tb tail Hp Ha Hs Hb E1 E2]; subst; cbn [m_stmts] in Hin; rewrite <- E2 in Ht; clear H E2.
    apply Forall_app in Ht as [_ Ht]; apply Forall_cons_iff in Ht as [_ Ht]; apply Forall_app in Ht as [_ Ht].
    apply Forall_cons_iff in Ht as [_ Ht]; apply Forall_app in Ht as [Ht _]; clear Hp Ha Hb.
    induction Hs as [|a l0 t1 t2 H1 H2 IH]; [contradiction|]; apply Forall_app in Ht as [K1 K2].
    destruct Hin as [->|Hin]; [|exact (IH K2 Hin)]; clear IH H2.
    assert (Y : exists te, equation_text F trunc nzero l r te /\ Forall (PropEval.known F) te).
    { inversion H1; subst; [apply Forall_app in K1 as [K1 _]; eauto|].
      apply Forall_app in K1 as [_ K1]; apply Forall_app in K1 as [K1 _]; eauto. }
    destruct Y as (te & Y & K); clear H1 K1 K2.
    inversion Y as [l' r' tl tr (o & en & Rl) (o' & en' & Rr)|l' tl (o & en & Rl)]; subst.
    - apply Forall_app in K as [Kl K]; apply Forall_cons_iff in K as [_ Kr].
      split; [exact (reads_known F trunc _ _ _ _ _ _ _ Rl Kl)|exact (reads_known F trunc _ _ _ _ _ _ _ Rr Kr)].
    - split; [exact (reads_known F trunc _ _ _ _ _ _ _ Rl K)|exact I].
  Qed.

  Lemma occurs_period x (e : ast F) : occurs F x e -> at_period F x 0 e.
  Proof. induction 1; econstructor; eassumption. Qed.
  Lemma occurs_t_period x k (e : ast F) : occurs_t F x k e -> at_period F x k e.
  Proof. induction 1; econstructor; eassumption. Qed.
  Lemma period_occurs x k (e : ast F) : at_period F x k e -> (k = 0%Z /\ occurs F x e) \/ occurs_t F x k e.
  Proof.
    induction 1; try (destruct IHat_period as [[-> IH]|IH]; [left; split; [reflexivity|econstructor; exact IH]|right; econstructor; exact IH]).
    - left; split; [reflexivity|constructor].
    - right; constructor.
  Qed.

  (** The readable models among those of files. *)
  Lemma file_readable t (f : modfile F) params :
    parse_file F float_of trunc nzero t = Ok f -> verify F f = Ok tt -> plain_file F f ->
    (forall x, In x (keys params) <-> In x (named F "parameters" f) \/ In x (map fst (local_defs F f))) ->
    readable (named F "var" f) (named F "varexo" f) (equations F f) params.
  Proof.
    intros Hf Hv [P1 P2 P3 P4 P5] K.
    destruct (C86_names F float_of trunc nzero t f Hf) as [_ Nd]; specialize (Nd Hv).
    destruct (proj1 (C13_accepted_exactly F float_of trunc nzero t f Hf) Hv) as (_ & _ & W3 & _).
    assert (Nm : forall x, In x (names F (named F "var" f) (named F "varexo" f) params) <-> In x (names_of F f)).
    { intros x; unfold names, names_of; rewrite !in_app_iff, K; tauto. }
    assert (Kind : forall k x, In x (named F k f) <-> In (x, k) (m_decls f)).
    { intros k x; unfold named; rewrite in_map_iff; split.
      - intros ((y & k') & <- & H); apply filter_In in H as [H E]; cbn in E; apply String.eqb_eq in E; subst; exact H.
      - intros H; exists (x, k); split; [reflexivity|]; apply filter_In; split; [exact H|apply String.eqb_refl]. }
    assert (One : forall x k k', In (x, k) (m_decls f) -> In (x, k') (m_decls f) -> k = k').
    { clear - Nd; induction (m_decls f) as [|[y j] l IH]; intros x k k' H H'; [destruct H|]; inversion Nd as [|? ? N1 N2]; subst.
      destruct H as [H|H], H' as [H'|H'].
      - congruence.
      - injection H as -> ->; elim N1; apply in_map_iff; exists (x, k'); auto.
      - injection H' as -> ->; elim N1; apply in_map_iff; exists (x, k); auto.
      - exact (IH N2 x k k' H H'). }
    split.
    { assert (D : forall l, NoDup (map fst l) -> NoDup (pick "var" l ++ pick "varexo" l)).
      { clear; induction l as [|[x k] l IH]; intros Nd; cbn [pick filter map]; [constructor|]; inversion Nd as [|? ? N1 N2]; subst; specialize (IH N2).
        unfold pick in *; cbn [filter snd].
        assert (Nx : forall k', ~ In x (map fst (filter (fun d : string * string => String.eqb (snd d) k') l))).
        { intros k' H; apply N1; apply in_map_iff in H as ((y & j) & E & H); apply filter_In in H as [H _]; apply in_map_iff; exists (y, j); auto. }
        destruct (String.eqb_spec k "var") as [->|Nk]; cbn [String.eqb map fst app].
        - constructor; [|exact IH]; intros H; apply in_app_iff in H as [H|H]; exact (Nx _ H).
        - destruct (String.eqb k "varexo"); [|exact IH]; cbn [map fst].
          apply NoDup_Add with (a := x) (l := map fst (filter (fun d : string * string => String.eqb (snd d) "var") l) ++ map fst (filter (fun d : string * string => String.eqb (snd d) "varexo") l)); [apply Add_app|].
          split; [exact IH|]; intros H; apply in_app_iff in H as [H|H]; exact (Nx _ H). }
      exact (D (m_decls f) Nd). }
    split; [intros x y Hx Hy; apply P1; apply Nm; assumption|].
    split; [split|].
    { intros x Hx; destruct (P2 x Hx) as (e & He & [H|(k & H)]); [exists 0%Z, e|exists k, e]; split; try exact He; [apply occurs_period|apply occurs_t_period]; exact H. }
    { intros x k e Hx He H; apply period_occurs in H as [[-> _]|H]; [lia|]; destruct (P4 e x k He H) as [_ [->| ->]]; lia. }
    split.
    { apply Forall_forall; intros e He.
      assert (S : exists tag l r, e = Bin BSub l r /\ In (SEq tag l r) (m_stmts f)).
      { unfold equations in He; apply in_flat_map in He as ([x e'|tag l r] & Hs & He); [destruct He|]; destruct He as [<-|[]]; eauto. }
      destruct S as (tag & l & r & -> & Hs).
      destruct (equation_functions t f tag l r Hf Hs) as [F1 F2]; destruct (C12_equations_are_algebraic F float_of trunc nzero t f tag l r Hf Hs) as [A1 A2].
      split; [split; [exact I|split; [split; assumption|split; assumption]]|].
      split; [split; [intros x Hx; apply Nm, (P3 _ x He Hx)|]|].
      - intros x k Hx; apply Nm; destruct (P4 _ x k He Hx) as [H _]; unfold names_of; apply in_or_app; left; exact H.
      - split; [intros x k Hx; apply (P4 _ x k He Hx)|intros x k Hx; apply (P4 _ x k He Hx)]. }
    { intros x Hx; apply lookup_None; intros H; apply K in H as [H|H].
      - apply Kind in Hx, H; specialize (One _ _ _ Hx H); discriminate.
      - apply Kind in Hx; change (local_defs F f) with (defs F (m_stmts f)) in H; rewrite defs_locals in H.
        unfold locals in H; apply in_flat_map in H as ([y e'|tag l r] & Hs & H); [destruct H as [->|[]]|destruct H].
        apply in_split in Hs as (pre & post & Es); specialize (W3 pre _ post Es); cbn in W3; destruct W3 as [W _]; apply W; left; left; eexists; exact Hx. }
  Qed.
End File.

(** ** The model of a file *)
Section Scope.
  Variable V : Type.
  Lemma merge_lookup (b : list (string * V)) : NoDup (keys b) -> forall a x,
    lookup x (merge V a b) = match lookup x b with Some v => Some v | None => lookup x a end.
  Proof.
    induction b as [|[y v] b IH]; intros N a x; [reflexivity|]; inversion N as [|? ? N1 N2]; subst.
    unfold merge in *; cbn [fold_left fst snd lookup]; rewrite (IH N2); destruct (String.eqb_spec x y) as [->|Ny].
    - rewrite (proj2 (lookup_None _ _)) by exact N1; apply lookup_update_eq.
    - destruct (lookup x b); [reflexivity|]; apply lookup_update_ne; congruence.
  Qed.
  Lemma merge_keys (b : list (string * V)) : forall a x, In x (keys (merge V a b)) <-> In x (keys a) \/ In x (keys b).
  Proof.
    induction b as [|[y v] b IH]; intros a x; [cbn; tauto|]; unfold merge in *; cbn [fold_left fst snd]; rewrite IH.
    rewrite keys_update; destruct (mem y (keys a)) eqn:E.
    - apply mem_In in E; cbn; split; [tauto|]; intros [H|[<-|H]]; tauto.
    - rewrite in_app_iff; cbn; tauto.
  Qed.
End Scope.

Section FileModel.
  Variable V : Type.
  Variable O : ops V.
  Variable two zero one : V.
  Variable truthy : V -> bool.
  Variable float_of : text -> option V.
  Variable trunc : V -> option Z.
  Variable nzero : V.
  Variable parse_text : text -> res (ast V).
  Variable space_t sol_t : Type.
  Variable space : list (option V) -> steady_repr V -> repr V -> res space_t.
  Hypothesis none_is_none : forall v, o_isnone O v = true -> v = o_none O.

  Lemma file_defined t o : read_model V O two float_of trunc nzero t = Ok o ->
    exists f d, parse_file V float_of trunc nzero t = Ok f /\ verify V f = Ok tt /\ create_outline V O two f = Ok o /\
      describes V one d (outline_args V o) /\ distinct V d /\ m_params V d = outline_defs o.
  Proof using none_is_none.
    intros H; unfold read_model in H; apply bind_ok in H as (f & Hf & H); exists f.
    destruct (C86_outline V O two f o none_is_none H) as (E1 & E2 & E3 & E4 & _ & E6 & E7 & _).
    assert (Hv : verify V f = Ok tt) by (unfold create_outline in H; apply bind_ok in H as ([] & Hv & _); exact Hv).
    destruct (C86_names V float_of trunc nzero t f Hf) as [Ne Nd]; specialize (Nd Hv).
    destruct (C30_files_are_described V one o) as (d & D & D1 & D2 & D3 & D4 & _).
    exists d; split; [exact Hf|]; split; [exact Hv|]; split; [exact H|]; split; [exact D|]; split; [|exact D4].
    assert (Sub : forall k x, In x (named V k f) -> In x (map fst (m_decls f))) by (intros k x; apply pick_sub).
    unfold distinct; rewrite D1, D2, D3, E1, E2, E3; split; [|split; [|split]].
    - apply pick_NoDup; exact Nd.
    - clear - Nd; unfold named; induction (m_decls f) as [|[x k] l IH]; cbn [filter map snd fst] in *; [constructor|].
      inversion Nd as [|? ? N1 N2]; subst; specialize (IH N2).
      destruct (String.eqb_spec k "varexo") as [->|Nk].
      + cbn; constructor; [|exact IH]; intros X; apply N1; apply in_app_or in X as [X|X]; exact (pick_sub _ _ _ X).
      + destruct (String.eqb k "varexo_det"); [|exact IH]; cbn [map fst].
        apply NoDup_Add with (a := x) (l := pick "varexo" l ++ pick "varexo_det" l); [apply Add_app|].
        split; [exact IH|]; intros X; apply N1; apply in_app_or in X as [X|X]; exact (pick_sub _ _ _ X).
    - intros X; exact (Ne (Sub _ _ X)).
    - intros X; apply in_app_or in X as [X|X]; exact (Ne (Sub _ _ X)).
  Qed.

  Lemma file_model t o m : read_model V O two float_of trunc nzero t = Ok o ->
    new_model V O zero one truthy float_of trunc parse_text space_t sol_t space (outline_args V o) = Ok m ->
    exists f, parse_file V float_of trunc nzero t = Ok f /\ verify V f = Ok tt /\
      let d := definition V space_t sol_t m in
      map ev_name (d_endog V d) = named V "var" f /\ map sv_name (d_stoch V d) = named V "varexo" f /\
      trees (d_exprs V d) = equations V f /\ values_of V O f (model_scope V d).
  Proof using none_is_none.
    intros H Hm; destruct (file_defined t o H) as (f & d & Hf & Hv & Ho & D & Di & D4).
    destruct (C86_model V O two zero one truthy float_of trunc nzero parse_text space_t sol_t space t o m none_is_none H Hm)
      as (f' & Hf' & E1 & E2 & _ & E4 & E5 & E6).
    rewrite Hf in Hf'; injection Hf' as <-.
    exists f; split; [exact Hf|]; split; [exact Hv|]; cbv zeta; split; [exact E1|]; split; [exact E2|]; split; [exact E4|].
    destruct (C86_outline V O two f o none_is_none Ho) as (_ & _ & _ & O4 & _ & _ & O7 & rho & rho' & X1 & X2 & X3).
    exists rho, rho'; split; [exact X1|]; split; [exact X2|].
    destruct (new_model_known V O zero one truthy (fun _ => true) float_of trunc parse_text space_t sol_t space d _ m D Di Hm) as ((_ & _ & _ & (c & T4 & T4') & _) & _).
    destruct (proj1 (C13_accepted_exactly V float_of trunc nzero t f Hf) Hv) as (_ & _ & W3 & _).
    assert (Nl : NoDup (keys (o_locals V o))).
    { rewrite O7; change (local_defs V f) with (defs V (m_stmts f)); rewrite defs_locals; apply locals_NoDup; exact W3. }
    unfold model_scope; rewrite E6; split; [|split].
    - intros St x Hx; rewrite (merge_lookup V _ Nl).
      assert (Hl : lookup x (o_locals V o) = None).
      { apply lookup_None; rewrite O7; change (local_defs V f) with (defs V (m_stmts f)); rewrite defs_locals; unfold locals; intros Hi.
        apply in_flat_map in Hi as ([y e'|tag l r] & Hs & Hi); [destruct Hi as [->|[]]|destruct Hi].
        apply in_split in Hs as (pre & post & Es); specialize (W3 pre _ post Es); cbn in W3; destruct W3 as [W _]; apply W; left; left.
        unfold named in Hx; apply in_map_iff in Hx as ((y & k) & <- & Hx); apply filter_In in Hx as [Hx _]; exists k; exact Hx. }
      rewrite Hl, T4; cbn [solved].
      destruct (file_parameters V O two none_is_none float_of trunc f o rho Ho St X1) as (c' & C1 & C2 & _).
      rewrite <- D4, T4' in C1; injection C1 as <-; apply C2.
      unfold named in Hx; apply in_map_iff in Hx as ((y & k) & <- & Hx); apply filter_In in Hx as [Hx E]; cbn in E; apply String.eqb_eq in E; subst k; exact Hx.
    - intros x Hx; rewrite (merge_lookup V _ Nl), (X3 x Hx); reflexivity.
    - intros x; rewrite merge_keys, E5, O7; tauto.
  Qed.
End FileModel.

(** ** The solution *)
Section Solution.
  Variable F : Type.
  Variable O : rops F.
  Variable P : ops F.
  Variable ltb eqb : F -> F -> bool.
  Variable nan : F.
  Variable minimize : solver -> (list F -> res F) -> list F -> res (list F).
  Variable grad : (list F -> res F) -> list F -> res (list F).
  Variable jacobian : (list F -> res (list F)) -> list F -> res (list (list F)).
  Variable qr : nat -> nat -> mat F -> res (mat F * mat F).
  Variable rank : nat -> nat -> mat F -> nat.
  Variable ordqz : nat -> mat F -> mat F -> res (schur F).
  Variable inv : nat -> mat F -> res (mat F).
  Variable qz : nat -> mat F -> mat F -> res (mat F * mat F * mat F * mat F).
  Variable solve : nat -> nat -> mat F -> mat F -> res (mat F).
  Notation space := (whole_space F O P ltb nan minimize grad qr rank ordqz).
  Notation solver_ := (whole_solver F O P eqb nan minimize grad jacobian inv qz solve).
  Notation fresh := (ModelStateProofs.fresh F (space_of F) space).

  (** The structures that the representations and the state space are made of. *)
  Lemma fresh_built ns is (sv : list (svar F)) es sc x st dy sp : fresh ns is sv es sc x st dy sp ->
    build F ns (map sv_name sv) es sc = Ok dy /\ r_stoch F dy = map sv_name sv /\
    steady_values F O P minimize "dynare" (Other (Ok false)) dy (initial_values F nan is) = Ok (sp_ss sp) /\
    ss_values F O P nan minimize is st dy = Ok (sp_ss sp) /\
    model_jacobian F P (r0 O) grad dy (sp_ss sp) = Ok (sp_jac sp) /\
    state_space F O ltb qr rank ordqz (r_index F dy) (sp_jac sp) = Ok (sp_state sp).
  Proof.
    intros (lls & H1 & H2 & H3 & H4 & H5).
    unfold new_steady in H3; apply bind_ok in H3 as (u1 & _ & H3); injection H3 as <-.
    unfold new_dynamic in H4; apply bind_ok in H4 as (u2 & _ & H4); injection H4 as <-.
    unfold whole_space in H5; apply bind_ok in H5 as (ss & H5 & H6); apply bind_ok in H6 as (A & H6 & H7); apply bind_ok in H7 as (s & H7 & H8); injection H8 as <-.
    cbn [sp_ss sp_jac sp_state r_stoch]; split; [|split; [reflexivity|split; [exact H5|split; [exact H5|split; [exact H6|exact H7]]]]].
    unfold build; rewrite H1; cbn [bind]; rewrite map_length, H2; reflexivity.
  Qed.

  Variable finv : F -> F.
  Variable le : F -> F -> Prop.
  Variable fns : string -> smooth_fun F.
  Variable pows : F -> smooth_fun F.
  Hypothesis FT : is_field O finv.
  Hypothesis OR : is_ordered O le.
  Hypothesis Hl : forall x y, ltb x y = false <-> le y x.
  Hypothesis Heq : forall x y, eqb x y = true <-> x = y.
  Hypothesis HI : interprets F O le P fns pows.
  Hypothesis Hqr : qr_routine F O qr.
  Hypothesis Hqz : schur_routine F O le ordqz.
  Hypothesis Hinv : inverse_routine F O inv.
  Hypothesis Hs : linear_routine F O solve.
  Hypothesis Hm : forall s m x0 y, minimize s (least_squares F O P m) x0 = Ok y -> least F le (List.length x0) (least_squares F O P m) y.

  Lemma steady_found ns is (sv : list (svar F)) es sc x st dy sp : fresh ns is sv es sc x st dy sp -> List.length is = List.length ns ->
    readable ns (map sv_name sv) es sc -> (exists y, is_steady F O P ns (map sv_name sv) es sc y) ->
    is_steady F O P ns (map sv_name sv) es sc (sp_ss sp).
  Proof using FT OR Hm Heq.
    intros H Li Rd He; destruct (fresh_built _ _ _ _ _ _ _ _ _ H) as (B & _ & S & _).
    apply (C84_minimum_partial F O finv le P minimize "dynare" (Other (Ok false)) ns (map sv_name sv) es sc dy (initial_values F nan is) (sp_ss sp) FT OR); try assumption.
    - intros a b; destruct (eqb a b) eqn:E; [left; apply Heq, E|right; intros N; apply Heq in N; congruence].
    - intros s y E; specialize (Hm s dy _ y E); unfold initial_values in Hm; rewrite map_length, Li in Hm; exact Hm.
  Qed.

  Lemma first_solves ns is (sv : list (svar F)) es sc x st dy sp s : fresh ns is sv es sc x st dy sp ->
    solver_ None is st dy sp = Ok s ->
    exists gy gu, s = First gy gu /\
      (readable ns (map sv_name sv) es sc -> List.length es = List.length ns ->
       (forall l, signature F ns es l -> differentiates F O le P ns (map sv_name sv) es sc grad jacobian l) ->
       is_steady F O P ns (map sv_name sv) es sc (sp_ss sp) -> smooth_at F O ns (map sv_name sv) es sc fns pows (sp_ss sp) ->
       ((exists e, In e (eigen (sp_state sp)) /\ beyond_one F O le e) \/ not_complex F O (last (eigen (sp_state sp)) Nan)) ->
       solves_first F O le P ns (map sv_name sv) sc es (sp_ss sp) gy gu).
  Proof using FT OR Hl HI Hqr Hqz Hinv Hs.
    intros H Es; destruct (fresh_built _ _ _ _ _ _ _ _ _ H) as (B & _ & _ & _ & J & S).
    cbn [whole_solver] in Es; apply bind_ok in Es as ([gy gu] & Eg & Es); injection Es as <-; cbn [fst snd].
    exists gy, gu; split; [reflexivity|]; intros Rd Sq Hd [Ls SS] Sm Rt.
    exact (C78_partial F O finv le ltb P fns pows grad jacobian qr rank ordqz inv solve ns (map sv_name sv) es sc (sp_ss sp) dy (sp_jac sp) (sp_state sp) gy gu
      FT OR Hl HI Hqr Hqz Hinv Hs Rd Sq Hd Ls Sm SS B J S Rt Eg).
  Qed.

  Hypothesis Hrs : real_schur_routine F O qz.
  Hypothesis He : fails_when_singular F O solve.
  Hypothesis Hu : refuses_singular F O solve.
  Lemma second_solves ns is (sv : list (svar F)) es sc x st dy sp s1 sg s : fresh ns is sv es sc x st dy sp ->
    (forall i j, sg i j = sg j i) ->
    solver_ None is st dy sp = Ok s1 -> solver_ (Some (s1, sg)) is st dy sp = Ok s ->
    exists gy gu xx xu uu dl, s = Second gy gu xx xu uu dl /\
      (readable ns (map sv_name sv) es sc -> List.length es = List.length ns ->
       (forall l, signature F ns es l -> differentiates F O le P ns (map sv_name sv) es sc grad jacobian l) ->
       is_steady F O P ns (map sv_name sv) es sc (sp_ss sp) -> smooth_at F O ns (map sv_name sv) es sc fns pows (sp_ss sp) ->
       ((exists e, In e (eigen (sp_state sp)) /\ beyond_one F O le e) \/ not_complex F O (last (eigen (sp_state sp)) Nan)) ->
       solves_second F O le P ns (map sv_name sv) sc es (sp_ss sp) sg gy gu xx xu uu dl).
  Proof using FT OR Hl Heq HI Hqr Hqz Hinv Hs Hrs He Hu.
    intros H Sg E1 Es; destruct (fresh_built _ _ _ _ _ _ _ _ _ H) as (B & Rs & _ & V & J & S).
    cbn [whole_solver] in E1; apply bind_ok in E1 as ([gy gu] & Eg & E1); injection E1 as <-; cbn [fst snd] in Es.
    cbn [whole_solver] in Es; rewrite V in Es; cbn [bind] in Es; apply bind_ok in Es as (Hs_ & Eh & Es); apply bind_ok in Es as ([[[xx xu] uu] dl] & E2 & Es); injection Es as <-.
    rewrite Rs in E2.
    exists gy, gu, xx, xu, uu, dl; split; [reflexivity|]; intros Rd Sq Hd [Ls SS] Sm Rt.
    exact (C79_partial F O finv le ltb eqb P fns pows grad jacobian qr rank ordqz inv qz solve nan ns (map sv_name sv) es sc (sp_ss sp) dy (sp_jac sp) Hs_ sg (sp_state sp) gy gu xx xu uu dl
      FT OR Hl Heq HI Hqr Hqz Hinv Hrs Hs He Hu Rd Sq Hd Ls Sm SS B J Eh (fun l l' _ _ => Sg l l') S Rt Eg E2).
  Qed.
End Solution.
