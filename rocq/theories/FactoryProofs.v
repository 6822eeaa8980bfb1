From Verif Require Import Base Syntax Lexer Parser Eval EvalSpec EvalProofs ModFileSpec Semantics SemanticsSpec SemanticsProofs Factory FactorySpec.

Section Proofs.
  Variable V : Type.
  Variable O : ops V.
  Variable two : V.
  Hypothesis none_is_none : forall v, o_isnone O v = true -> v = o_none O.
  Notation outline := (outline V).
  Notation memory := (memory V).

  (** The memories hold exactly the environment. *)
  Definition holds (m : memory) (rho : env V) : Prop :=
    forall x, mem_lookup V O x [file_mem V m; model_mem V m] = rho x.
  Definition apart (ps : list string) (m : memory) : Prop :=
    (forall x, In x (keys (file_mem V m)) -> ~ In x ps) /\ (forall x, In x (keys (model_mem V m)) -> In x ps).

  Lemma evaluate_in m rho e : holds m rho -> evaluate V O (file_scope V m) e = eval_in V O rho e.
  Proof.
    intros H; unfold evaluate, eval_in, file_scope; apply eval_agree; [|reflexivity].
    intros x _; cbn [scope_get]; rewrite H; reflexivity.
  Qed.

  Lemma lookup_keys {A} x (d : list (string * A)) : ~ In x (keys d) -> lookup x d = None.
  Proof. apply lookup_None. Qed.

  Lemma assign_step o m x e rho :
    holds m rho -> apart (keys (o_params V o)) m ->
    match eval_in V O rho e with
    | Err er => assign V O (o, m) (x, e) = Err er
    | Ok v => exists o' m', assign V O (o, m) (x, e) = Ok (o', m') /\ holds m' (set V rho x v) /\
        apart (keys (o_params V o')) m' /\ (forall y, In y (keys (o_params V o')) <-> In y (keys (o_params V o))) /\
        o' = set_params V (if mem x (keys (o_params V o)) then update x (Some e) (o_params V o) else o_params V o) o
    end.
  Proof.
    intros H A; unfold assign; rewrite (evaluate_in m rho e H).
    destruct (eval_in V O rho e) as [v|er]; cbn [bind]; [|reflexivity].
    destruct A as [A1 A2]; destruct (mem x (keys (o_params V o))) eqn:E.
    - do 2 eexists; split; [reflexivity|]; cbn [file_mem model_mem o_params set_params].
      apply mem_In in E.
      assert (K : forall y, In y (keys (update x (Some e) (o_params V o))) <-> In y (keys (o_params V o))).
      { intros y; rewrite keys_update; apply mem_In in E; rewrite E; reflexivity. }
      split; [|split; [|split; [exact K|reflexivity]]].
      + intros y; cbn [mem_lookup file_mem model_mem].
        specialize (H y); cbn [mem_lookup file_mem model_mem] in H; unfold set.
        rewrite lookup_update; destruct (String.eqb_spec y x) as [->|Ny]; [|exact H].
        assert (lookup x (file_mem V m) = None) as -> by (apply lookup_keys; intros G; exact (A1 x G E)).
        destruct (o_isnone O v) eqn:En; [symmetry; apply none_is_none; exact En|reflexivity].
      + split; cbn [file_mem model_mem].
        * intros y Hy; rewrite K; apply A1; exact Hy.
        * intros y Hy; apply K; rewrite keys_update in Hy; destruct (mem x (keys (model_mem V m))); [apply A2; exact Hy|].
          apply in_app_iff in Hy as [Hy|[<-|[]]]; [apply A2; exact Hy|exact E].
    - do 2 eexists; split; [reflexivity|]; cbn [file_mem model_mem].
      apply mem_false in E.
      split; [|split; [|split; [reflexivity|destruct o; reflexivity]]].
      + intros y; cbn [mem_lookup file_mem model_mem].
        specialize (H y); cbn [mem_lookup file_mem model_mem] in H; unfold set.
        rewrite lookup_update; destruct (String.eqb_spec y x) as [->|Ny]; [|exact H].
        destruct (o_isnone O v) eqn:En; [|reflexivity].
        assert (lookup x (model_mem V m) = None) as -> by (apply lookup_keys; intros G; exact (E (A2 x G))).
        symmetry; apply none_is_none; exact En.
      + split; cbn [file_mem model_mem].
        * intros y Hy; rewrite keys_update in Hy; destruct (mem x (keys (file_mem V m))); [apply A1; exact Hy|].
          apply in_app_iff in Hy as [Hy|[<-|[]]]; [apply A1; exact Hy|exact E].
        * exact A2.
  Qed.

  (** The parameters of the outline: the last tree assigned. *)
  Definition param_trees (ps : list (string * option (ast V))) (l : list (assignment V)) :=
    fold_left (fun d (a : assignment V) => if mem (fst a) (keys d) then update (fst a) (Some (snd a)) d else d) l ps.

  Lemma assigns_run l : forall o m rho, holds m rho -> apart (keys (o_params V o)) m ->
    match exec V O rho l with
    | Err er => foldM (assign V O) (o, m) l = Err er
    | Ok rho' => exists m', foldM (assign V O) (o, m) l = Ok (set_params V (param_trees (o_params V o) l) o, m') /\ holds m' rho' /\
        apart (keys (o_params V o)) m'
    end.
  Proof.
    induction l as [|[x e] l IH]; intros o m rho H A; cbn [exec foldM param_trees fold_left fst snd].
    - exists m; split; [destruct o; reflexivity|]; split; [exact H|exact A].
    - pose proof (assign_step o m x e rho H A) as S.
      destruct (eval_in V O rho e) as [v|er]; cbn [bind].
      + destruct S as (o' & m' & E & H' & A' & K & Eo); rewrite E; cbn [bind].
        specialize (IH o' m' _ H' A').
        destruct (exec V O (set V rho x v) l); [|exact IH].
        destruct IH as (m'' & IH & H'' & A''); exists m''; split; [|split; [exact H''|split; [intros y Hy; rewrite <- K; exact (proj1 A'' y Hy)|intros y Hy; apply K; exact (proj2 A'' y Hy)]]].
        rewrite IH; f_equal; f_equal; rewrite Eo; unfold set_params, param_trees; cbn [o_params o_endo o_lead_lags o_stoch o_det o_locals o_exprs o_init o_term o_hist o_shocks]; reflexivity.
      + rewrite S; reflexivity.
  Qed.

  (** ** Blocks of values *)
  Lemma bound_run m rho l d : holds m rho ->
    forall d', foldM (fun d (a : assignment V) => do v <- evaluate V O (file_scope V m) (snd a); Ok (update (fst a) v d)) d l = Ok d' ->
    forall x v, lookup x d' = Some v <->
      match assigned V x l with Some e => eval_in V O rho e = Ok v | None => lookup x d = Some v end.
  Proof.
    intros H; revert d; induction l as [|[y e] l IH]; intros d d' E x v; cbn [foldM assigned last_such] in *.
    - injection E as <-; reflexivity.
    - cbn [fst snd] in E; rewrite (evaluate_in m rho e H) in E; apply bind_ok in E as (d1 & E1 & E).
      apply bind_ok in E1 as (w & Ew & E1); injection E1 as <-.
      rewrite (IH _ _ E); fold (assigned V x l); destruct (assigned V x l) as [e'|]; [reflexivity|].
      cbn [fst snd]; rewrite lookup_update; destruct (String.eqb x y); [|reflexivity].
      rewrite Ew; split; intros G; injection G as ->; reflexivity.
  Qed.
  Lemma bound_values_spec m rho l d : holds m rho -> bound_values V O m l = Ok d -> block_values V O rho l d.
  Proof.
    intros H E x v; rewrite (bound_run m rho l [] H d E); destruct (assigned V x l) as [e|].
    - split; [intros G; eauto|intros (e' & G & G'); injection G as <-; exact G'].
    - cbn [lookup]; split; [discriminate|intros (e' & G & _); discriminate].
  Qed.
  Lemma bound_total m rho l : holds m rho -> (forall x e, In (x, e) l -> exists v, eval_in V O rho e = Ok v) ->
    exists d, bound_values V O m l = Ok d.
  Proof.
    intros H; unfold bound_values; generalize (@nil (string * V)) as d0; induction l as [|[y e] l IH]; intros d0 Ha; cbn [foldM fst snd]; [eauto|].
    rewrite (evaluate_in m rho e H); destruct (Ha y e (or_introl eq_refl)) as (v & ->); cbn [bind].
    apply IH; intros x e' Hin; apply (Ha x e'); right; exact Hin.
  Qed.

  (** ** Shocks *)
  Definition of_shock (d : list (string * moments V)) (x : string) : moments V :=
    match lookup x d with Some s => s | None => no_moments V end.
  Definition sees (rho : env V) (now : option V) (q : option (res V)) (bef : option V) : Prop :=
    match q with Some r => exists v, r = Ok v /\ now = Some v | None => now = bef end.

  Lemma shock_step m rho d h d1 : holds m rho -> shock_moment V O two m d h = Ok d1 ->
    forall x,
      sees rho (variance V (of_shock d1 x)) (option_map (moment V O two rho) (states_variance V x h)) (variance V (of_shock d x)) /\
      other V (of_shock d1 x) = match states_other V x h with Some y => Some y | None => other V (of_shock d x) end /\
      sees rho (corr V (of_shock d1 x)) (option_map (eval_in V O rho) (states_corr V x h)) (corr V (of_shock d x)) /\
      sees rho (cov V (of_shock d1 x)) (option_map (eval_in V O rho) (states_cov V x h)) (cov V (of_shock d x)).
  Proof.
    intros H E1 x.
    assert (U : forall y s, of_shock (update y s d) x = if String.eqb x y then s else of_shock d x).
    { intros y s; unfold of_shock; rewrite lookup_update; destruct (String.eqb x y); reflexivity. }
    destruct h as [y z e|y z e|y e|y e|y ps vs]; cbn [shock_moment] in E1; [| | | |discriminate];
      rewrite (evaluate_in m rho e H) in E1; apply bind_ok in E1 as (v & Ev & E1);
      try (apply bind_ok in E1 as (v2 & Ev2 & E1));
      injection E1 as <-; rewrite U; fold (of_shock d y);
      cbn [states_variance states_other states_corr states_cov];
      destruct (String.eqb_spec x y) as [->|Nx]; cbn [variance other corr cov option_map sees];
      unfold moment; cbn [fst snd]; try rewrite Ev; cbn [bind]; try rewrite Ev2;
      repeat split; eauto.
  Qed.

  Lemma sees_trans {A B} rho now mid bef (g : B -> res V) (p : A -> option B) a l :
    sees rho mid (option_map g (p a)) bef -> sees rho now (option_map g (last_such p l)) mid ->
    sees rho now (option_map g (last_such p (a :: l))) bef.
  Proof.
    cbn [last_such]; destruct (last_such p l) as [b|]; cbn [option_map sees]; [auto|].
    intros H1 H2; subst mid; exact H1.
  Qed.

  Lemma shocks_run m rho l : holds m rho -> forall d d', foldM (shock_moment V O two m) d l = Ok d' ->
    forall x,
      sees rho (variance V (of_shock d' x)) (option_map (moment V O two rho) (last_such (states_variance V x) l)) (variance V (of_shock d x)) /\
      other V (of_shock d' x) = match last_such (states_other V x) l with Some y => Some y | None => other V (of_shock d x) end /\
      sees rho (corr V (of_shock d' x)) (option_map (eval_in V O rho) (last_such (states_corr V x) l)) (corr V (of_shock d x)) /\
      sees rho (cov V (of_shock d' x)) (option_map (eval_in V O rho) (last_such (states_cov V x) l)) (cov V (of_shock d x)).
  Proof.
    intros H; induction l as [|h l IH]; intros d d' E x.
    - cbn [foldM last_such option_map sees] in *; injection E as <-; auto.
    - cbn [foldM] in E; apply bind_ok in E as (d1 & E1 & E); specialize (IH _ _ E x); clear E.
      pose proof (shock_step m rho d h d1 H E1 x) as (S1 & S2 & S3 & S4).
      destruct IH as (I1 & I2 & I3 & I4).
      split; [exact (sees_trans rho _ _ _ _ _ _ _ S1 I1)|].
      split; [|split; [exact (sees_trans rho _ _ _ _ _ _ _ S3 I3)|exact (sees_trans rho _ _ _ _ _ _ _ S4 I4)]].
      rewrite I2; cbn [last_such]; destruct (last_such (states_other V x) l); [reflexivity|exact S2].
  Qed.

  (** ** Periods *)
  Lemma set_add_In k j l : In j (set_add k l) <-> j = k \/ In j l.
  Proof using Type.
    clear V O two none_is_none.
    unfold set_add; destruct (existsb (Z.eqb k) l) eqn:E.
    - split; [tauto|intros [->|H]; [|exact H]].
      apply existsb_exists in E as (z & Hz & Ez); apply Z.eqb_eq in Ez; subst; exact Hz.
    - rewrite in_app_iff; cbn [In]; firstorder congruence.
  Qed.
  Lemma set_add_NoDup k l : NoDup l -> NoDup (set_add k l).
  Proof using Type.
    intros H; unfold set_add; destruct (existsb (Z.eqb k) l) eqn:E; [exact H|].
    clear - H E.
    induction H as [|a l Ha Hl IH]; cbn [app]; [repeat constructor; auto|].
    cbn [existsb] in E; apply orb_false_iff in E as [E1 E2].
    constructor; [|apply IH; exact E2].
    rewrite in_app_iff; intros [G|[G|[]]]; [contradiction|subst; rewrite Z.eqb_refl in E1; discriminate].
  Qed.
  Lemma record_spec x k l y : lookup y (record x k l) =
    if String.eqb y x then option_map (set_add k) (lookup x l) else lookup y l.
  Proof using Type.
    unfold record; destruct (lookup x l) as [ps|] eqn:E; cbn [option_map].
    - rewrite lookup_update; reflexivity.
    - destruct (String.eqb_spec y x) as [->|]; auto.
  Qed.
  Lemma periods_spec e l : algebraic V e -> exists l', record_periods V e l = Ok l' /\
    forall y, match lookup y l with
              | None => lookup y l' = None
              | Some ps => exists ps', lookup y l' = Some ps' /\ (NoDup ps -> NoDup ps') /\
                  forall k, In k ps' <-> In k ps \/ at_period V y k e
              end.
  Proof using V.
    clear O two none_is_none.
    revert l; induction e as [n|x|x k|u e IH|o a IHa b IHb|g e IH|o a IHa b IHb]; intros l Ha; cbn [algebraic record_periods] in *.
    - eexists; split; [reflexivity|]; intros y; destruct (lookup y l) as [ps|]; [|reflexivity].
      exists ps; split; [reflexivity|]; split; [auto|]; intros j; split; [auto|intros [?|G]; [assumption|inversion G]].
    - eexists; split; [reflexivity|]; intros y; rewrite record_spec.
      destruct (String.eqb_spec y x) as [->|Ny].
      + destruct (lookup x l) as [ps|]; cbn [option_map]; [|reflexivity].
        eexists; split; [reflexivity|]; split; [apply set_add_NoDup|]; intros j; rewrite set_add_In; split.
        * intros [->|?]; [right; constructor|auto].
        * intros [?|G]; [auto|inversion G; auto].
      + destruct (lookup y l) as [ps|]; [|reflexivity].
        exists ps; split; [reflexivity|]; split; [auto|]; intros j; split; [auto|intros [?|G]; [assumption|inversion G; congruence]].
    - eexists; split; [reflexivity|]; intros y; rewrite record_spec.
      destruct (String.eqb_spec y x) as [->|Ny].
      + destruct (lookup x l) as [ps|]; cbn [option_map]; [|reflexivity].
        eexists; split; [reflexivity|]; split; [apply set_add_NoDup|]; intros j; rewrite set_add_In; split.
        * intros [->|?]; [right; constructor|auto].
        * intros [?|G]; [auto|inversion G; auto].
      + destruct (lookup y l) as [ps|]; [|reflexivity].
        exists ps; split; [reflexivity|]; split; [auto|]; intros j; split; [auto|intros [?|G]; [assumption|inversion G; congruence]].
    - destruct (IH l Ha) as (l' & E & G); exists l'; split; [exact E|]; intros y; specialize (G y).
      destruct (lookup y l) as [ps|]; [|exact G]; destruct G as (ps' & G1 & G2 & G3).
      exists ps'; split; [exact G1|]; split; [exact G2|]; intros j; rewrite G3; split.
      + intros [?|?]; [auto|right; constructor; assumption].
      + intros [?|P]; [auto|inversion P; auto].
    - destruct Ha as [Ha Hb]; destruct (IHa l Ha) as (l1 & E1 & G1); rewrite E1; cbn [bind].
      destruct (IHb l1 Hb) as (l2 & E2 & G2); exists l2; split; [exact E2|]; intros y; specialize (G1 y); specialize (G2 y).
      destruct (lookup y l) as [ps|]; [|rewrite G1 in G2; exact G2].
      destruct G1 as (ps1 & F1 & F2 & F3); rewrite F1 in G2; destruct G2 as (ps2 & H1 & H2 & H3).
      exists ps2; split; [exact H1|]; split; [auto|]; intros j; rewrite H3, F3; split.
      + intros [[?|?]|?]; [auto|right; apply P_binl; assumption|right; apply P_binr; assumption].
      + intros [?|P]; [auto|inversion P; auto].
    - destruct (IH l Ha) as (l' & E & G); exists l'; split; [exact E|]; intros y; specialize (G y).
      destruct (lookup y l) as [ps|]; [|exact G]; destruct G as (ps' & G1 & G2 & G3).
      exists ps'; split; [exact G1|]; split; [exact G2|]; intros j; rewrite G3; split.
      + intros [?|?]; [auto|right; constructor; assumption].
      + intros [?|P]; [auto|inversion P; auto].
    - contradiction.
  Qed.
End Proofs.

(** ** The whole outline *)
Section Whole.
  Variable V : Type.
  Variable O : ops V.
  Variable two : V.
  Hypothesis none_is_none : forall v, o_isnone O v = true -> v = o_none O.

  Definition plain (o : outline V) : Prop :=
    o_init V o = [] /\ o_term V o = [] /\ o_hist V o = [] /\ o_shocks V o = [].

  Lemma declare_plain ds o o' : foldM (declare V) o ds = Ok o' -> plain o -> plain o'.
  Proof.
    revert o; induction ds as [|[x k] ds IH]; intros o H P; cbn [foldM] in H; [injection H as <-; exact P|].
    apply bind_ok in H as (o1 & H1 & H); apply (IH _ H); clear - H1 P; unfold declare in H1.
    destruct (String.eqb k "parameters"); [injection H1 as <-; exact P|].
    destruct (String.eqb k "varexo"); [injection H1 as <-; exact P|].
    destruct (String.eqb k "varexo_det"); [injection H1 as <-; exact P|].
    destruct (String.eqb k "var"); [injection H1 as <-; exact P|discriminate].
  Qed.
  Lemma stmts_plain mm l ol ol' : foldM (model_stmt V O mm) ol l = Ok ol' -> plain (fst ol) -> plain (fst ol').
  Proof.
    revert ol; induction l as [|st l IH]; intros ol H P; cbn [foldM] in H; [injection H as <-; exact P|].
    apply bind_ok in H as (o1 & H1 & H); apply (IH _ H); clear - H1 P; destruct ol as [o loc]; cbn [model_stmt] in H1.
    destruct st as [x e|tag l0 r].
    - apply bind_ok in H1 as (v & _ & H1); injection H1 as <-; exact P.
    - apply bind_ok in H1 as (ll & _ & H1); injection H1 as <-; exact P.
  Qed.

  Notation assigns := (assigns V).
  Lemma block_nil rho : block_values V O rho [] [].
  Proof. intros x v; cbn; split; [discriminate|intros (e & H & _); discriminate]. Qed.

  Lemma actions_spec m rho a o o' : holds V O m rho -> plain o -> model_actions V O two m a o = Ok o' ->
    block_values V O rho (assigns (a_initval a)) (o_init V o') /\
    block_values V O rho (assigns (a_endval a)) (o_term V o') /\
    (o_hist V o' = match a_histval a with Some _ => o_term V o' | None => [] end) /\
    (a_histval a <> None -> a_endval a <> None) /\
    exists args l d, a_shocks a = Some (args, l) /\ o_shocks V o' = d /\ foldM (shock_moment V O two m) [] l = Ok d.
  Proof.
    intros Hm (P1 & P2 & P3 & P4) H; unfold model_actions in H; apply bind_ok in H as (o1 & H1 & H).
    destruct (a_shocks a) as [[args l]|] eqn:Es; [|discriminate].
    apply bind_ok in H as (d & Hd & H); injection H as <-; cbn [o_init o_term o_hist o_shocks].
    unfold boundaries in H1; apply bind_ok in H1 as (i & Hi & H1); apply bind_ok in H1 as (t & Ht & H1).
    apply bind_ok in H1 as (h & Hh & H1); injection H1 as <-; cbn [o_init o_term o_hist].
    split; [|split; [|split; [|split]]].
    - destruct (a_initval a) as [[ar li]|]; cbn [assigns].
      + eapply bound_values_spec; eassumption.
      + injection Hi as <-; rewrite P1; apply block_nil.
    - destruct (a_endval a) as [[ar li]|]; cbn [assigns].
      + eapply bound_values_spec; eassumption.
      + injection Ht as <-; rewrite P2; apply block_nil.
    - destruct (a_histval a) as [[ar li]|]; [|injection Hh as <-; exact P3].
      apply bind_ok in Hh as (? & _ & Hh); destruct (a_endval a); [injection Hh as <-; reflexivity|discriminate].
    - intros N; destruct (a_histval a) as [[ar li]|]; [|congruence].
      apply bind_ok in Hh as (? & _ & Hh); destruct (a_endval a); discriminate.
    - exists args, l, d; auto.
  Qed.

  Lemma set_params_plain p o : plain o -> plain (set_params V p o). Proof. exact (fun H => H). Qed.

  Lemma create_inv f o : create_outline V O two f = Ok o ->
    verify V f = Ok tt /\ exists rho m o1 ol, exec V O (nothing V O) (m_params f) = Ok rho /\ holds V O m rho /\
      foldM (declare V) (empty_outline V) (m_decls f) = Ok o1 /\
      foldM (model_stmt V O (model_mem V m)) (set_params V (param_trees V (o_params V o1) (m_params f)) o1, []) (m_stmts f) = Ok ol /\
      plain (fst ol) /\ model_actions V O two m (m_actions f) (fst ol) = Ok o.
  Proof.
    intros H; unfold create_outline in H; apply bind_ok in H as ([] & Hv & H); split; [exact Hv|].
    apply bind_ok in H as (o1 & H1 & H); apply bind_ok in H as (om & H2 & H); apply bind_ok in H as (ol & H3 & H).
    assert (Hh : holds V O (Memory V [] []) (nothing V O)) by (intros x; reflexivity).
    assert (Ha : apart V (keys (o_params V o1)) (Memory V [] [])) by (split; intros x []).
    pose proof (assigns_run V O none_is_none (m_params f) o1 (Memory V [] []) (nothing V O) Hh Ha) as R.
    destruct (exec V O (nothing V O) (m_params f)) as [rho|er]; [|congruence].
    destruct R as (m & R & Hm & Hap); rewrite R in H2; injection H2 as <-; cbn [fst snd] in *.
    exists rho, m, o1, ol; split; [reflexivity|]; split; [exact Hm|]; split; [exact H1|]; split; [exact H3|]; split; [|exact H].
    eapply stmts_plain; [exact H3|]; cbn [fst]; apply set_params_plain.
    eapply declare_plain; [exact H1|]; repeat split; reflexivity.
  Qed.

  Variable num : V -> Prop.
  Notation closed := (closed V O num).
  Notation arithmetic := (arithmetic V num).
  Notation reads_only := (reads_only V num).
  Notation computable := (computable V num).
  Lemma eval_total vv pv e : closed -> arithmetic e ->
    (forall x, occurs V x e -> exists v, vv x = Ok v /\ num v) ->
    exists v, eval_with V O vv pv e = Ok v /\ num v.
  Proof.
    intros (Cb & Cu & Cf); induction e as [n|x|x k|u e IH|o l IHl r IHr|g e IH|o l IHl r IHr]; intros Ha Hx; cbn [arithmetic eval_with] in *.
    - eauto.
    - apply Hx; constructor.
    - contradiction.
    - destruct IH as (v & -> & Hv); [exact Ha|intros; apply Hx; constructor; assumption|]; cbn [bind]; auto.
    - destruct Ha as [Hl Hr]; destruct IHl as (v & -> & Hv); [exact Hl|intros; apply Hx; constructor; assumption|]; cbn [bind].
      destruct IHr as (w & -> & Hw); [exact Hr|intros; apply Hx; apply O_binr; assumption|]; cbn [bind]; auto.
    - destruct Ha as [Hg Ha]; rewrite evaluated_not_refused by exact Hg; apply mem_In in Hg; rewrite Hg.
      destruct IH as (v & -> & Hv); [exact Ha|intros; apply Hx; constructor; assumption|]; cbn [bind]; auto.
    - contradiction.
  Qed.
  Hypothesis Hclosed : closed.
  Hypothesis num_some : forall v, num v -> o_isnone O v = false.
  Hypothesis num_two : num two.

  Lemma exec_total l : forall rho known, (forall y, In y known -> num (rho y)) ->
    (forall pre x e post, l = pre ++ (x, e) :: post -> reads_only (fun y => In y (known ++ keys pre)) e) ->
    exists rho', exec V O rho l = Ok rho' /\ forall y, In y (known ++ keys l) -> num (rho' y).
  Proof.
    induction l as [|[x e] l IH]; intros rho known Hk H; cbn [exec].
    - exists rho; split; [reflexivity|]; unfold keys; cbn [map]; rewrite app_nil_r; exact Hk.
    - destruct (H [] x e l eq_refl) as [Ha Hx].
      destruct (eval_total (fun x => Ok (rho x)) (fun _ _ => Err GenericErr) e Hclosed Ha) as (v & Ev & Hv).
      { intros y Hy; exists (rho y); split; [reflexivity|]; apply Hk; apply Hx in Hy; unfold keys in Hy; cbn [map] in Hy; rewrite app_nil_r in Hy; exact Hy. }
      unfold eval_in; rewrite Ev; cbn [bind].
      destruct (IH (set V rho x v) (known ++ [x])) as (rho' & E & Hr).
      { intros y Hy; unfold set; destruct (String.eqb_spec y x) as [->|Ny]; [exact Hv|].
        apply in_app_iff in Hy as [Hy|[Hy|[]]]; [apply Hk; exact Hy|congruence]. }
      { intros pre y e' post ->; destruct (H ((x, e) :: pre) y e' post eq_refl) as [G1 G2]; split; [exact G1|].
        intros z Hz; apply G2 in Hz; rewrite <- app_assoc; exact Hz. }
      exists rho'; split; [exact E|]; intros y Hy; apply Hr; rewrite <- app_assoc; exact Hy.
  Qed.

  Lemma declare_total ds : Forall (fun d => In (snd d) ["parameters"; "varexo"; "varexo_det"; "var"]%string) ds ->
    forall o, exists o', foldM (declare V) o ds = Ok o' /\
      forall x, In x (keys (o_params V o')) <-> In x (keys (o_params V o)) \/ In (x, "parameters"%string) ds.
  Proof.
    induction 1 as [|[x k] ds Hk Hds IH]; intros o; cbn [foldM].
    - exists o; split; [reflexivity|]; cbn [In]; tauto.
    - cbn [snd In] in Hk.
      assert (S : exists o1, declare V o (x, k) = Ok o1 /\
        forall y, In y (keys (o_params V o1)) <-> In y (keys (o_params V o)) \/ (y = x /\ k = "parameters"%string)).
      { destruct Hk as [<-|[<-|[<-|[<-|[]]]]]; unfold declare; cbn [String.eqb Ascii.eqb Bool.eqb]; eexists; (split; [reflexivity|]);
          cbn [o_params set_params]; intros y.
        - rewrite keys_update; destruct (mem x (keys (o_params V o))) eqn:E.
          + apply mem_In in E; split; [tauto|intros [?|[-> _]]; assumption].
          + rewrite in_app_iff; cbn [In]; split; intros [?|?]; auto; right; [split; [|reflexivity]|]; destruct H; tauto || congruence || auto.
        - split; [tauto|intros [?|[_ ?]]; [assumption|discriminate]].
        - split; [tauto|intros [?|[_ ?]]; [assumption|discriminate]].
        - split; [tauto|intros [?|[_ ?]]; [assumption|discriminate]]. }
      destruct S as (o1 & -> & S); cbn [bind]; destruct (IH o1) as (o2 & E & K); exists o2; split; [exact E|].
      intros y; rewrite K, S; cbn [In]; split.
      + intros [[?|[-> ->]]|?]; auto.
      + intros [?|[G|?]]; [auto| |auto]; injection G as -> ->; auto.
  Qed.

  Lemma stmts_total mm : forall (l pre : list (statement V)) o loc,
    (forall p s q, l = p ++ s :: q ->
       match s with
       | SLocal x e => reads_only (fun y => num (mem_lookup V O y [mm]) \/ In y (locals V (pre ++ p))) e
       | SEq _ a b => algebraic V a /\ algebraic V b
       end) ->
    (forall y, In y (locals V pre) -> num (mem_lookup V O y [loc; mm])) ->
    (forall y, num (mem_lookup V O y [mm]) -> num (mem_lookup V O y [loc; mm])) ->
    exists ol, foldM (model_stmt V O mm) (o, loc) l = Ok ol.
  Proof.
    induction l as [|s l IH]; intros pre o loc H Hl Hm; cbn [foldM]; [eauto|].
    pose proof (H [] s l eq_refl) as Hs; rewrite app_nil_r in Hs.
    destruct s as [x e|tag a b]; cbn [model_stmt].
    - destruct Hs as [Ha Hx].
      destruct (eval_total (scope_get V O (SMem [loc; mm])) (fun _ _ => Err GenericErr) e Hclosed Ha) as (v & Ev & Hv).
      { intros y Hy; eexists; split; [reflexivity|]; destruct (Hx y Hy); auto. }
      unfold evaluate; rewrite Ev; cbn [bind].
      assert (U : forall y, mem_lookup V O y [update x v loc; mm] = if String.eqb y x then v else mem_lookup V O y [loc; mm]).
      { intros y; cbn [mem_lookup]; rewrite lookup_update; destruct (String.eqb y x); [rewrite (num_some v Hv)|]; reflexivity. }
      apply (IH (pre ++ [SLocal x e])).
      + intros p s q ->; rewrite <- app_assoc; apply (H (SLocal x e :: p) s q eq_refl).
      + intros y Hy; unfold locals in Hy; rewrite flat_map_app in Hy; cbn [flat_map app] in Hy; rewrite U.
        destruct (String.eqb_spec y x); [exact Hv|]; apply in_app_iff in Hy as [Hy|[Hy|[]]]; [apply Hl; exact Hy|congruence].
      + intros y Hy; rewrite U; destruct (String.eqb y x); [exact Hv|apply Hm; exact Hy].
    - destruct (periods_spec V (Bin BSub a b) (o_lead_lags V o) Hs) as (ll & Ell & _); cbv zeta; rewrite Ell; cbn [bind].
      apply (IH (pre ++ [SEq tag a b])).
      + intros p s q ->; rewrite <- app_assoc; apply (H (SEq tag a b :: p) s q eq_refl).
      + intros y Hy; unfold locals in Hy; rewrite flat_map_app in Hy; cbn [flat_map app] in Hy; rewrite app_nil_r in Hy; apply Hl; exact Hy.
      + exact Hm.
  Qed.

  Lemma create_total f :
    verify V f = Ok tt -> computable f ->
    (forall tag l r, In (SEq tag l r) (m_stmts f) -> algebraic V l /\ algebraic V r) ->
    (exists a l, a_shocks (m_actions f) = Some (a, l) /\ forall h, In h l -> match h with ShDet _ _ _ => False | _ => True end) ->
    exists o, create_outline V O two f = Ok o.
  Proof.
    intros Hv (K1 & K2 & K3 & K4 & K5 & K6) Halg (ar & ls & Els & Hdet); unfold create_outline; rewrite Hv; cbn [bind].
    destruct (declare_total _ K1 (empty_outline V)) as (o1 & E1 & P1); rewrite E1; cbn [bind].
    assert (Hh : holds V O (Memory V [] []) (nothing V O)) by (intros x; reflexivity).
    assert (Ha : apart V (keys (o_params V o1)) (Memory V [] [])) by (split; intros x []).
    pose proof (assigns_run V O none_is_none (m_params f) o1 (Memory V [] []) (nothing V O) Hh Ha) as R.
    destruct (exec_total (m_params f) (nothing V O) []) as (rho & Er & Hr).
    { intros y []. }
    { intros pre x e post E; exact (K2 pre x e post E). }
    cbn [app] in Hr; rewrite Er in R; destruct R as (m & R & Hm & Hap); rewrite R; cbn [bind fst snd].
    assert (Hval : forall e, reads_only (fun y => In y (keys (m_params f))) e -> exists v, eval_in V O rho e = Ok v /\ num v).
    { intros e [Ar Hx]; apply eval_total; [exact Hclosed|exact Ar|]; intros y Hy; eexists; split; [reflexivity|]; apply Hr, Hx, Hy. }
    destruct (stmts_total (model_mem V m) (m_stmts f) [] (set_params V (param_trees V (o_params V o1) (m_params f)) o1) []) as (ol & Eol).
    { intros p s q E; destruct s as [x e|tag a b].
      - destruct (K3 p x e q E) as [G1 G2]; split; [exact G1|]; intros y Hy; destruct (G2 y Hy) as [[D1 D2]|L]; [left|right; exact L].
        specialize (Hr y D2); rewrite <- (Hm y) in Hr; cbn [mem_lookup] in Hr |- *.
        assert (lookup y (file_mem V m) = None) as Ef.
        { apply lookup_None; intros G; apply (proj1 Hap y G); apply P1; right; exact D1. }
        rewrite Ef in Hr; exact Hr.
      - apply (Halg tag); rewrite E; apply in_app_iff; right; left; reflexivity. }
    { intros y []. }
    { intros y Hy; exact Hy. }
    rewrite Eol; cbn [bind]; unfold model_actions, boundaries.
    assert (Hb : forall b, (forall x e, In (x, e) (assigns b) -> reads_only (fun y => In y (keys (m_params f))) e) ->
      forall d0, exists d, (match b with None => Ok d0 | Some (_, l) => bound_values V O m l end) = Ok d).
    { intros [[ab lb]|] Hin d0; [|eauto]; apply (bound_total V O m rho lb Hm); intros x e Hxe.
      destruct (Hval e (Hin x e Hxe)) as (v & Ev & _); eauto. }
    destruct (Hb (a_initval (m_actions f))) with (d0 := o_init V (fst ol)) as (d1 & ->).
    { intros x e G; apply (K4 x e); rewrite !in_app_iff; auto. }
    cbn [bind]; destruct (Hb (a_endval (m_actions f))) with (d0 := o_term V (fst ol)) as (d2 & ->).
    { intros x e G; apply (K4 x e); rewrite !in_app_iff; auto. }
    cbn [bind].
    assert (H3 : exists d3, (match a_histval (m_actions f) with
        | Some (_, l) => do _ <- bound_values V O m l; match a_endval (m_actions f) with Some _ => Ok d2 | None => Err UnboundErr end
        | None => Ok (o_hist V (fst ol)) end) = Ok d3).
    { destruct (a_histval (m_actions f)) as [[ah lh]|] eqn:Eh; [|eauto].
      destruct (bound_total V O m rho lh Hm) as (d & ->).
      { intros x e G; destruct (Hval e) as (v & Ev & _); [apply (K4 x e); cbn [assigns]; rewrite !in_app_iff; auto|eauto]. }
      cbn [bind]; destruct (a_endval (m_actions f)); [eauto|exfalso; apply K6; [discriminate|reflexivity]]. }
    destruct H3 as (d3 & ->); cbn [bind]; rewrite Els.
    assert (Hs : forall d0, exists d, foldM (shock_moment V O two m) d0 ls = Ok d).
    { specialize (K5 ar ls); clear - Els Hdet K5 Hval Hm Hclosed num_two.
      assert (K : forall h, In h ls -> match h with
       | ShCorr _ _ e | ShCov _ _ e | ShVar _ e | ShStd _ e => reads_only (fun y => In y (keys (m_params f))) e
       | ShDet _ _ _ => False end).
      { intros h G; specialize (K5 h Els G); specialize (Hdet h G); destruct h; auto. }
      clear Els K5 Hdet; induction ls as [|h l IH]; intros d0; cbn [foldM]; [eauto|].
      assert (S : exists d1, shock_moment V O two m d0 h = Ok d1).
      { specialize (K h (or_introl eq_refl)); destruct h as [x y e|x y e|x e|x e|x p v]; [| | | |contradiction];
          destruct (Hval e K) as (v & Ev & Hv); cbn [shock_moment]; rewrite (evaluate_in V O m rho e Hm), Ev; cbn [bind]; eauto.
        destruct Hclosed as (Cb & _); destruct (Cb BPow v two Hv num_two) as (u & -> & _); cbn [bind]; eauto. }
      destruct S as (d1 & ->); cbn [bind]; apply IH; intros h' G; apply K; right; exact G. }
    destruct (Hs []) as (d & ->); cbn [bind]; eauto.
  Qed.
End Whole.
