(** The parameters of an outline, and their values. *)
From Verif Require Import Base Syntax Lexer Parser Eval EvalSpec EvalProofs ModFileSpec Semantics SemanticsSpec
  SemanticsProofs Factory FactorySpec FactoryProofs Calib CalibSpec CalibProofs.
From Coq Require Import Relations.

Section Params.
  Variable V : Type.
  Variable O : ops V.
  Variable two : V.

  Lemma declare_params ds : forall o o', foldM (declare V) o ds = Ok o' ->
    NoDup (keys (o_params V o)) -> (forall x e, lookup x (o_params V o) = Some e -> e = None) ->
    NoDup (keys (o_params V o')) /\ (forall x e, lookup x (o_params V o') = Some e -> e = None) /\
    forall x, In x (keys (o_params V o')) <-> In x (keys (o_params V o)) \/ In (x, "parameters"%string) ds.
  Proof.
    induction ds as [|[x k] ds IH]; intros o o' H Hnd Hn; cbn [foldM] in H.
    - injection H as <-; cbn [In]; split; [exact Hnd|]; split; [exact Hn|tauto].
    - apply bind_ok in H as (o1 & H1 & H); unfold declare in H1.
      destruct (String.eqb_spec k "parameters") as [->|Nk].
      + injection H1 as <-; destruct (IH _ _ H) as (A & B & C); cbn [o_params set_params] in *.
        * apply NoDup_keys_update; exact Hnd.
        * intros y e; rewrite lookup_update; destruct (String.eqb y x); [congruence|apply Hn].
        * split; [exact A|]; split; [exact B|]; intros y; rewrite C, keys_update; cbn [In].
          destruct (mem x (keys (o_params V o))) eqn:E.
          -- apply mem_In in E; split; [tauto|intros [?|[G|?]]; [auto| |auto]]; injection G as ->; auto.
          -- rewrite in_app_iff; cbn [In]; split; [intros [[?|[->|[]]]|?]; auto|intros [?|[G|?]]; auto; injection G as ->; auto].
      + assert (E : o_params V o1 = o_params V o).
        { destruct (String.eqb k "varexo"); [injection H1 as <-; reflexivity|].
          destruct (String.eqb k "varexo_det"); [injection H1 as <-; reflexivity|].
          destruct (String.eqb k "var"); [injection H1 as <-; reflexivity|discriminate]. }
        destruct (IH _ _ H) as (A & B & C); [rewrite E; exact Hnd|rewrite E; exact Hn|].
        split; [exact A|]; split; [exact B|]; intros y; rewrite C, E; cbn [In]; split; [tauto|].
        intros [?|[G|?]]; [auto| |auto]; injection G as -> ->; contradiction.
  Qed.

  Lemma param_trees_spec l : forall ps, NoDup (keys ps) ->
    keys (param_trees V ps l) = keys ps /\
    forall x, In x (keys ps) -> lookup x (param_trees V ps l) =
      match assigned V x l with Some e => Some (Some e) | None => lookup x ps end.
  Proof.
    unfold param_trees; induction l as [|[y e] l IH]; intros ps Hnd; cbn [fold_left fst snd assigned last_such].
    - split; reflexivity.
    - destruct (mem y (keys ps)) eqn:E.
      + assert (K : keys (update y (Some e) ps) = keys ps) by (rewrite keys_update, E; reflexivity).
        destruct (IH (update y (Some e) ps)) as (A & B); [rewrite K; exact Hnd|].
        split; [rewrite A; exact K|]; intros x Hx; rewrite B by (rewrite K; exact Hx).
        fold (assigned V x l); destruct (assigned V x l); [reflexivity|].
        rewrite lookup_update; destruct (String.eqb x y); reflexivity.
      + destruct (IH ps Hnd) as (A & B); split; [exact A|]; intros x Hx; rewrite B by exact Hx.
        fold (assigned V x l); destruct (assigned V x l); [reflexivity|].
        destruct (String.eqb_spec x y) as [->|]; [|reflexivity]; apply mem_false in E; contradiction.
  Qed.

  Lemma stmts_params mm l ol ol' : foldM (model_stmt V O mm) ol l = Ok ol' -> o_params V (fst ol') = o_params V (fst ol).
  Proof.
    revert ol; induction l as [|st l IH]; intros ol H; cbn [foldM] in H; [injection H as <-; reflexivity|].
    apply bind_ok in H as (o1 & H1 & H); rewrite (IH _ H); clear - H1; destruct ol as [o loc]; cbn [model_stmt] in H1.
    destruct st as [x e|tag l0 r].
    - apply bind_ok in H1 as (v & _ & H1); injection H1 as <-; reflexivity.
    - apply bind_ok in H1 as (ll & _ & H1); injection H1 as <-; reflexivity.
  Qed.
  Lemma actions_params m a o o' : model_actions V O two m a o = Ok o' -> o_params V o' = o_params V o.
  Proof.
    intros H; unfold model_actions in H; apply bind_ok in H as (o1 & H1 & H).
    destruct (a_shocks a) as [[args l]|]; [|discriminate]; apply bind_ok in H as (d & _ & H); injection H as <-.
    unfold boundaries in H1; apply bind_ok in H1 as (i & _ & H1); apply bind_ok in H1 as (t & _ & H1).
    apply bind_ok in H1 as (h & _ & H1); injection H1 as <-; reflexivity.
  Qed.

  Hypothesis none_is_none : forall v, o_isnone O v = true -> v = o_none O.
  Lemma outline_params f o : create_outline V O two f = Ok o ->
    NoDup (keys (o_params V o)) /\ (forall x, In x (keys (o_params V o)) <-> In (x, "parameters"%string) (m_decls f)) /\
    (forall x, In x (keys (o_params V o)) -> lookup x (o_params V o) = Some (assigned V x (m_params f))) /\
    exists rho, exec V O (nothing V O) (m_params f) = Ok rho.
  Proof.
    intros H; apply (create_inv V O two none_is_none) in H as (_ & rho & m & o1 & ol & E & _ & H1 & H2 & _ & H3).
    rewrite (actions_params _ _ _ _ H3), (stmts_params _ _ _ _ H2); cbn [fst o_params set_params].
    destruct (declare_params _ _ _ H1) as (A & B & C); [constructor|discriminate|].
    destruct (param_trees_spec (m_params f) _ A) as (K & L).
    rewrite K; split; [exact A|]; split; [intros x; rewrite C; cbn; tauto|]; split; [|eauto].
    intros x Hx; rewrite (L x Hx); destruct (assigned V x (m_params f)); [reflexivity|].
    destruct (lookup_key x _ Hx) as (e & He); rewrite He, (B x e He); reflexivity.
  Qed.

  (** Executing assignments: a name keeps its last value. *)
  Lemma exec_other l : forall rho rho' y, exec V O rho l = Ok rho' -> ~ In y (keys l) -> rho' y = rho y.
  Proof.
    induction l as [|[x e] l IH]; intros rho rho' y H Hy; cbn [exec] in H; [injection H as <-; reflexivity|].
    unfold keys in Hy; cbn [map fst In] in Hy; apply bind_ok in H as (v & _ & H); rewrite (IH _ _ _ H) by tauto.
    unfold set; destruct (String.eqb_spec y x) as [->|]; [tauto|reflexivity].
  Qed.
  Lemma exec_app l1 l2 rho : exec V O rho (l1 ++ l2) = do rho1 <- exec V O rho l1; exec V O rho1 l2.
  Proof.
    revert rho; induction l1 as [|[x e] l1 IH]; intros rho; cbn [app exec bind]; [reflexivity|].
    destruct (eval_in V O rho e); cbn [bind]; [apply IH|reflexivity].
  Qed.
  Lemma assigned_split x l e : assigned V x l = Some e -> exists pre post, l = pre ++ (x, e) :: post /\ ~ In x (keys post).
  Proof.
    induction l as [|[y e'] l IH]; cbn [assigned last_such]; [discriminate|]; fold (assigned V x l).
    destruct (assigned V x l) as [e2|] eqn:E.
    - intros G; injection G as ->; destruct (IH eq_refl) as (pre & post & -> & Hp); exists ((y, e') :: pre), post; auto.
    - cbn [fst snd]; destruct (String.eqb_spec x y) as [<-|]; [|discriminate]; intros G; injection G as ->.
      exists [], l; split; [reflexivity|]; clear - E; induction l as [|[z e3] l IH]; [exact (fun f => f)|].
      cbn [assigned last_such] in E; fold (assigned V x l) in E; destruct (assigned V x l); [discriminate|].
      cbn [fst] in E; destruct (String.eqb_spec x z); [discriminate|]; intros [G|G]; [cbn in G; congruence|exact (IH eq_refl G)].
  Qed.
  Lemma assigned_In x l : In x (keys l) -> exists e, assigned V x l = Some e.
  Proof.
    induction l as [|[y e] l IH]; intros H; [contradiction|]; cbn [assigned last_such]; fold (assigned V x l).
    destruct (assigned V x l) as [e2|] eqn:E; [eauto|].
    destruct H as [H|H]; [|destruct (IH H); discriminate]; cbn [fst snd] in *; rewrite H, String.eqb_refl; eauto.
  Qed.

  (** How many assignments follow the last one to [x]. *)
  Fixpoint after (x : string) (l : list (assignment V)) : nat :=
    match l with
    | [] => 0
    | a :: l' => if mem x (keys l') then after x l' else List.length l'
    end.
  Lemma after_split pre x e post : ~ In x (keys post) -> after x (pre ++ (x, e) :: post) = List.length post.
  Proof.
    intros H; induction pre as [|[y e'] pre IH]; cbn [app after].
    - apply mem_false in H; rewrite H; reflexivity.
    - assert (E : mem x (keys (pre ++ (x, e) :: post)) = true); [|rewrite E; exact IH].
      apply mem_In; unfold keys; rewrite map_app; apply in_app_iff; right; left; reflexivity.
  Qed.

  Variable float_of : text -> option V.
  Variable trunc : V -> option Z.
  Notation settled := (settled V).
  Lemma file_parameters f o rho : create_outline V O two f = Ok o -> settled f ->
    exec V O (nothing V O) (m_params f) = Ok rho ->
    exists c, solve_calibration V O float_of trunc (outline_defs o) = Ok c /\
      (forall x, In (x, "parameters"%string) (m_decls f) -> lookup x c = Some (rho x)) /\
      (forall x, In x (keys c) <-> In (x, "parameters"%string) (m_decls f)).
  Proof.
    intros H [S1 S2] Hx; destruct (outline_params f o H) as (P1 & P2 & P3 & _).
    set (d := outline_defs o).
    assert (Kd : keys d = keys (o_params V o)) by (unfold d, outline_defs, keys; rewrite map_map; reflexivity).
    assert (Hd : forall x p, In (x, p) d -> exists e pre post, p = DTree e /\ m_params f = pre ++ (x, e) :: post /\
      In (x, "parameters"%string) (m_decls f) /\ ~ In x (keys post)).
    { intros x p Hin; unfold d, outline_defs in Hin; apply in_map_iff in Hin as ([y oe] & E & Hin); cbn [fst snd] in E; injection E as <- <-.
      assert (Hk : In y (keys (o_params V o))) by (unfold keys; apply (in_map fst) in Hin; exact Hin).
      apply (lookup_In _ _ _ P1) in Hin; rewrite (P3 y Hk) in Hin; injection Hin as <-.
      assert (Hp : In (y, "parameters"%string) (m_decls f)) by (apply P2; exact Hk).
      destruct (assigned_In y (m_params f) (S1 y Hp)) as (e & He); rewrite He.
      destruct (assigned_split y _ e He) as (pre & post & E & Hpost); exists e, pre, post; auto. }
    set (c := map (fun x => (x, rho x)) (keys (o_params V o))).
    assert (Lc : forall x, In x (keys (o_params V o)) -> lookup x c = Some (rho x)).
    { intros x Hin; apply lookup_In; [unfold c, keys at 1; rewrite map_map, map_id; exact P1|].
      apply in_map_iff; exists x; auto. }
    destruct (solve_complete V O float_of trunc d c) as (c' & Hc & Hk & Hl).
    - rewrite Kd; exact P1.
    - intros x p Hin; destruct (Hd x p Hin) as (e & pre & post & -> & E & Hp & Hpost).
      destruct (S2 pre x e post E Hp Hpost) as (A & B & C); exists e; split; [reflexivity|]; split; [exact A|]; split; [exact B|].
      intros y Hy; rewrite Kd; apply P2; exact (proj1 (C y Hy)).
    - intros (x & Hc).
      assert (M : forall a b, clos_trans string (depends V float_of trunc d) a b -> after a (m_params f) < after b (m_params f)).
      { intros a b T; induction T as [a b D|a b z _ IH1 _ IH2]; [|lia].
        destruct D as (p & e & Hin & Hm & Ho); destruct (Hd a p Hin) as (e' & pre & post & -> & E & Hp & Hpost).
        cbn [CalibSpec.means] in Hm; subst e'; destruct (S2 pre a e post E Hp Hpost) as (_ & _ & C).
        destruct (C b Ho) as (Pb & Nb & Ib & Jb); rewrite E, (after_split pre a e post Hpost).
        destruct (assigned_In b pre Ib) as (eb & Hb); destruct (assigned_split b pre eb Hb) as (p1 & p2 & -> & Hp2).
        rewrite <- app_assoc; cbn [app]; rewrite after_split.
        - rewrite app_length; cbn [List.length]; lia.
        - unfold keys; rewrite map_app; cbn [map fst]; rewrite in_app_iff; cbn [In]; intros [G|[G|G]]; [exact (Hp2 G)|congruence|exact (Jb G)]. }
      specialize (M x x Hc); lia.
    - intros x p Hin; destruct (Hd x p Hin) as (e & pre & post & -> & E & Hp & Hpost).
      exists (rho x), e; split; [apply Lc, P2, Hp|]; split; [reflexivity|].
      destruct (S2 pre x e post E Hp Hpost) as (_ & _ & C).
      rewrite E, exec_app in Hx; apply bind_ok in Hx as (r1 & H1 & Hx); cbn [exec] in Hx; apply bind_ok in Hx as (v & Hv & Hx).
      rewrite (exec_other _ _ _ x Hx Hpost); unfold set at 1; rewrite String.eqb_refl; rewrite <- Hv.
      unfold evaluate, eval_in; apply eval_agree; [|reflexivity]; intros y Hy; cbn [scope_get].
      destruct (C y Hy) as (Py & Ny & Iy & Jy); rewrite (Lc y) by (apply P2; exact Py).
      rewrite (exec_other _ _ _ y Hx Jy); unfold set; destruct (String.eqb_spec y x); [contradiction|reflexivity].
    - exists c'; split; [exact Hc|]; split.
      + intros x Hp; rewrite Hl; [apply Lc, P2, Hp|rewrite Kd; apply P2, Hp].
      + intros x; rewrite Hk, Kd; apply P2.
  Qed.
End Params.
