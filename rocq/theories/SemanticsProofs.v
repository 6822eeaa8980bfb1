From Verif Require Import Base Syntax EvalSpec ModFileSpec Semantics SemanticsSpec.

Lemma sym_insert x y t s : s <> [] -> sym x (insert y t s) = if String.eqb x y then Some t else sym x s.
Proof.
  destruct s as [|tb s]; [congruence|]; intros _; cbn [insert sym]; rewrite lookup_update.
  destruct (String.eqb x y); reflexivity.
Qed.
Lemma insert_ne y t s : s <> [] -> insert y t s <> [].
Proof. destruct s; [congruence|]; cbn [insert]; discriminate. Qed.

Section Fold.
  Variables A B : Type.
  Variable f : B -> A -> res B.
  Variable D : list A -> B -> Prop.
  Variable Q : A -> Prop.
  Variable P : list A -> A -> Prop.
  Hypothesis step : forall pre b a, D pre b -> Q a -> P pre a -> exists b', f b a = Ok b' /\ D (pre ++ [a]) b'.
  Hypothesis only : forall pre b a b', D pre b -> Q a -> f b a = Ok b' -> P pre a.

  Lemma foldM_gen l : Forall Q l -> forall pre b, D pre b ->
    ((exists b', foldM f b l = Ok b') <-> (forall p a q, l = p ++ a :: q -> P (pre ++ p) a)) /\
    (forall b', foldM f b l = Ok b' -> D (pre ++ l) b').
  Proof.
    induction 1 as [|a l Ha Hl IH]; intros pre b HD; cbn [foldM].
    - split.
      + split; [intros _ p a q E; destruct p; discriminate|eauto].
      + intros b' E; injection E as <-; rewrite app_nil_r; exact HD.
    - split.
      + split.
        * intros (b' & E); apply bind_ok in E as (b1 & E1 & E).
          pose proof (only _ _ _ _ HD Ha E1) as HP.
          destruct (step _ _ _ HD Ha HP) as (b2 & E2 & HD2); rewrite E1 in E2; injection E2 as <-.
          intros p a' q Ep; destruct p as [|a0 p]; cbn [app] in Ep; injection Ep as <- ->.
          -- rewrite app_nil_r; exact HP.
          -- destruct (IH _ _ HD2) as [[I1 _] _]; specialize (I1 (ex_intro _ _ E) p a' q eq_refl).
             rewrite <- app_assoc in I1; exact I1.
        * intros H.
          pose proof (H [] a l eq_refl) as HP; rewrite app_nil_r in HP.
          destruct (step _ _ _ HD Ha HP) as (b2 & E2 & HD2); rewrite E2; cbn [bind].
          apply (IH _ _ HD2); intros p a' q ->; rewrite <- app_assoc; apply (H (a :: p) a' q); reflexivity.
      + intros b' E; apply bind_ok in E as (b1 & E1 & E).
        pose proof (only _ _ _ _ HD Ha E1) as HP.
        destruct (step _ _ _ HD Ha HP) as (b2 & E2 & HD2); rewrite E1 in E2; injection E2 as <-.
        destruct (IH _ _ HD2) as [_ I2]; specialize (I2 b' E); rewrite <- app_assoc in I2; exact I2.
  Qed.
End Fold.

Section Proofs.
  Variable N : Type.

  Lemma uses_ext vis vis' timed timed' (e : ast N) :
    (forall x, vis x <-> vis' x) -> (forall x, timed x <-> timed' x) ->
    (uses N vis timed e <-> uses N vis' timed' e).
  Proof. intros H1 H2; unfold uses; firstorder. Qed.

  Definition seen (s : tables) (x : string) : Prop := sym x s <> None.
  Definition datable (s : tables) (x : string) : Prop :=
    exists k, sym x s = Some (TyKind k) /\ k <> "parameters"%string.

  Lemma uses_un o e vis timed : uses N vis timed (Un o e) <-> uses N vis timed e.
  Proof.
    unfold uses; cbn [algebraic]; split; intros (H1 & H2 & H3); (split; [|split; [|exact H3]]).
    - intros; apply H1; constructor; assumption.
    - intros; eapply H2; constructor; eassumption.
    - intros x H; inversion H; subst; auto.
    - intros x k H; inversion H; subst; eauto.
  Qed.
  Lemma uses_fun o e vis timed : uses N vis timed (Fun o e) <-> uses N vis timed e.
  Proof.
    unfold uses; cbn [algebraic]; split; intros (H1 & H2 & H3); (split; [|split; [|exact H3]]).
    - intros; apply H1; constructor; assumption.
    - intros; eapply H2; constructor; eassumption.
    - intros x H; inversion H; subst; auto.
    - intros x k H; inversion H; subst; eauto.
  Qed.
  Lemma uses_bin o l r vis timed :
    uses N vis timed (Bin o l r) <-> uses N vis timed l /\ uses N vis timed r.
  Proof.
    unfold uses; cbn [algebraic]; split.
    - intros (H1 & H2 & H3 & H4); split; (split; [|split; [|assumption]]).
      + intros; apply H1; apply O_binl; assumption.
      + intros; eapply H2; apply T_binl; eassumption.
      + intros; apply H1; apply O_binr; assumption.
      + intros; eapply H2; apply T_binr; eassumption.
    - intros [(H1 & H2 & H3) (H4 & H5 & H6)]; split; [|split; [|split; assumption]].
      + intros x H; inversion H; subst; auto.
      + intros x k H; inversion H; subst; eauto.
  Qed.

  Lemma check_expr_iff s (e : ast N) :
    check_expr N s e = Ok tt <-> uses N (seen s) (datable s) e.
  Proof.
    induction e as [n|x|x k|u e IH|o l IHl r IHr|g e IH|o l IHl r IHr]; cbn [check_expr].
    - split; [intros _|reflexivity]; split; [|split]; [intros x H; inversion H|intros x k H; inversion H|exact I].
    - split.
      + intros H; split; [|split; [intros y k Hy; inversion Hy|exact I]].
        intros y Hy; inversion Hy; subst; unfold seen; destruct (sym _ s); [discriminate|discriminate].
      + intros (H & _); specialize (H x (O_var N x)); unfold seen in H; destruct (sym x s); congruence.
    - split.
      + intros H; split; [intros y Hy; inversion Hy|split; [|exact I]].
        intros y q Hy; inversion Hy; subst; unfold datable; destruct (sym _ s) as [t|]; [|discriminate].
        apply bind_ok in H as (k0 & H1 & H); destruct t; try discriminate; injection H1 as ->.
        destruct (String.eqb_spec k0 "parameters"); [discriminate|]; eauto.
      + intros (_ & H & _); destruct (H x k (T_var N x k)) as (q & -> & Hq); cbn [stype_name bind].
        destruct (String.eqb_spec q "parameters"); [contradiction|reflexivity].
    - rewrite uses_un; exact IH.
    - rewrite uses_bin, <- IHl, <- IHr; split.
      + intros H; apply bind_ok in H as ([] & H1 & H2); auto.
      + intros [-> ->]; reflexivity.
    - rewrite uses_fun; exact IH.
    - split; [discriminate|]; intros (_ & _ & H); contradiction.
  Qed.

  Lemma unit_res (r : res unit) : (exists u, r = Ok u) <-> r = Ok tt.
  Proof. split; [intros ([] & H); exact H|eauto]. Qed.

  Lemma builtin_iff x : mem x builtin_names = true <-> predefined x.
  Proof.
    rewrite mem_In; unfold predefined, builtin_names, var_kinds; cbn [In]; firstorder congruence.
  Qed.
  Lemma sym_builtins x : sym x [builtins] = if mem x builtin_names then Some TyNone else None.
  Proof.
    cbn [sym]; unfold builtins; induction builtin_names as [|y l IH]; [reflexivity|].
    cbn [map lookup mem existsb]; destruct (String.eqb x y); [reflexivity|exact IH].
  Qed.

  Variable f : modfile N.
  Hypothesis kinds : Forall (fun d => In (snd d) var_kinds) (m_decls f).

  (** ** Declarations *)
  Definition Ddecl (pre : list declaration) (s : tables) : Prop :=
    s <> [] /\ forall x, sym x s = match lookup x pre with
                                   | Some k => Some (TyKind k)
                                   | None => if mem x builtin_names then Some TyNone else None end.
  Definition Pdecl (pre : list declaration) (d : declaration) : Prop :=
    ~ In (fst d) (keys pre) /\ ~ predefined (fst d).

  Lemma lookup_app {A} x (a b : list (string * A)) :
    lookup x (a ++ b) = match lookup x a with Some v => Some v | None => lookup x b end.
  Proof. induction a as [|[y v] a IH]; cbn [app lookup]; [reflexivity|]; destruct (String.eqb x y); auto. Qed.

  Lemma decl_unseen pre s x : Ddecl pre s -> (sym x s = None <-> ~ In x (keys pre) /\ ~ predefined x).
  Proof.
    intros [_ H]; rewrite H, <- lookup_None, <- builtin_iff.
    destruct (lookup x pre); [split; [discriminate|intros [? _]; discriminate]|].
    destruct (mem x builtin_names); split; auto; try discriminate; try (intros [_ X]; congruence).
  Qed.

  Lemma decls_run :
    ((exists s, foldM check_decl [builtins] (m_decls f) = Ok s) <-> decls_ok N f) /\
    (forall s, foldM check_decl [builtins] (m_decls f) = Ok s -> Ddecl (m_decls f) s).
  Proof.
    destruct (foldM_gen _ _ check_decl Ddecl (fun d => In (snd d) var_kinds) Pdecl) with (l := m_decls f) (pre := @nil declaration) (b := [builtins]) as [H1 H2].
    - intros pre s [x k] HD Hk HP; cbn [check_decl fst snd] in *.
      assert (Hs : sym x s = None) by (apply (decl_unseen pre s x HD); exact HP).
      rewrite Hs; eexists; split; [reflexivity|].
      destruct HD as [Hne HD]; split; [apply insert_ne; exact Hne|]; intros y; rewrite sym_insert by exact Hne.
      unfold declaration; rewrite lookup_app; cbn [lookup].
      assert (Hks : sym k s <> None).
      { rewrite HD; destruct (lookup k pre); [discriminate|].
        assert (mem k builtin_names = true) as -> by (apply builtin_iff; right; exact Hk); discriminate. }
      destruct (String.eqb_spec y x) as [->|Nx].
      + assert (lookup x pre = None) as -> by (apply lookup_None; exact (proj1 HP)).
        destruct (sym k s); [reflexivity|congruence].
      + rewrite HD; destruct (lookup y pre); reflexivity.
    - intros pre s [x k] s' HD _ H; cbn [check_decl] in H.
      destruct (sym x s) eqn:E; [discriminate|]; apply (decl_unseen pre s x HD); exact E.
    - exact kinds.
    - split; [discriminate|]; intros x; cbn [lookup]; apply sym_builtins.
    - cbn [app] in *; split; [|exact H2].
      rewrite H1; unfold decls_ok, Pdecl; split.
      + intros H; split.
        * assert (G : forall l pre : list (string * string), (forall p a q, l = p ++ a :: q -> ~ In (fst a) (keys (pre ++ p))) -> NoDup (map fst l)).
          { clear; induction l as [|a l IH]; intros pre H; cbn [map]; [constructor|].
            constructor.
            - intros Hin; apply in_map_iff in Hin as (b & Eb & Hin); apply in_split in Hin as (l1 & l2 & ->).
              apply (H (a :: l1) b l2 eq_refl); unfold keys; rewrite map_app, in_app_iff; right; cbn [map In]; left; congruence.
            - apply (IH (pre ++ [a])); intros p b q ->; rewrite <- app_assoc; apply (H (a :: p) b q eq_refl). }
          apply (G _ []); intros p a q E; apply (H p a q E).
        * intros x (k & Hx); unfold declared in Hx; apply in_split in Hx as (l1 & l2 & E); apply (H l1 (x, k) l2 E).
      + intros [ND Hp] p [x k] q E; cbn [fst]; split.
        * rewrite E, map_app in ND; cbn [map fst] in ND; apply NoDup_remove_2 in ND; intros Hin; apply ND; apply in_app_iff; left; exact Hin.
        * apply Hp; exists k; unfold declared; rewrite E; apply in_app_iff; right; left; reflexivity.
  Qed.

  (** ** From here on declarations are as they should be *)
  Hypothesis Hdecls : decls_ok N f.
  Lemma declared_lookup x k : declared N f k x <-> lookup x (m_decls f) = Some k.
  Proof.
    split; [apply lookup_In; exact (proj1 Hdecls)|apply lookup_Some_In].
  Qed.
  Lemma is_declared_lookup x : is_declared N f x <-> lookup x (m_decls f) <> None.
  Proof.
    split.
    - intros (k & H); apply declared_lookup in H; congruence.
    - destruct (lookup x (m_decls f)) as [k|] eqn:E; [intros _; exists k; apply declared_lookup; exact E|congruence].
  Qed.
  Lemma declared_not_builtin x k : lookup x (m_decls f) = Some k -> mem x builtin_names = false.
  Proof.
    intros H; destruct (mem x builtin_names) eqn:E; [|reflexivity].
    apply builtin_iff in E; exfalso; apply (proj2 Hdecls x); [exists k; apply declared_lookup; exact H|exact E].
  Qed.

  (** The table after the declarations, the assignments [pre] and the local
      definitions [loc]. *)
  Definition Dsym (pre : list (assignment N)) (loc : list string) (s : tables) : Prop :=
    s <> [] /\ forall x, sym x s =
      match lookup x (m_decls f) with
      | Some k => Some (TyKind k)
      | None => if mem x builtin_names then Some TyNone
                else if mem x (keys pre) then Some TyString
                else if mem x loc then Some (TyKind "parameters") else None
      end.

  Lemma Dsym_decl s : Ddecl (m_decls f) s -> Dsym [] [] s.
  Proof.
    intros [H1 H2]; split; [exact H1|]; intros x; rewrite H2; destruct (lookup x (m_decls f)); [reflexivity|].
    destruct (mem x builtin_names); reflexivity.
  Qed.

  Lemma Dsym_seen pre loc s x : Dsym pre loc s ->
    (seen s x <-> is_declared N f x \/ In x (keys pre) \/ predefined x \/ In x loc).
  Proof.
    intros [_ H]; unfold seen; rewrite H, is_declared_lookup, <- builtin_iff, <- !mem_In.
    destruct (lookup x (m_decls f)); [split; [left|]; discriminate|].
    destruct (mem x builtin_names), (mem x (keys pre)), (mem x loc); split; try (intros _; discriminate); try tauto;
      try (intros [?|[?|[?|?]]]; congruence).
  Qed.
  Lemma Dsym_datable pre loc s x : Dsym pre loc s -> (datable s x <-> dated N f x).
  Proof.
    intros [_ H]; unfold datable, dated; split.
    - intros (k & E & Hk); exists k; split; [|exact Hk]; apply declared_lookup.
      rewrite H in E; destruct (lookup x (m_decls f)); [congruence|].
      destruct (mem x builtin_names); [discriminate|]; destruct (mem x (keys pre)); [discriminate|].
      destruct (mem x loc); [|discriminate]; congruence.
    - intros (k & Hx & Hk); exists k; split; [|exact Hk]; apply declared_lookup in Hx; rewrite H, Hx; reflexivity.
  Qed.
  Lemma Dsym_expr pre loc s e : Dsym pre loc s ->
    (check_expr N s e = Ok tt <->
     uses N (fun x => is_declared N f x \/ In x (keys pre) \/ predefined x \/ In x loc) (dated N f) e).
  Proof.
    intros H; rewrite check_expr_iff; apply uses_ext; intros x; [eapply Dsym_seen|eapply Dsym_datable]; exact H.
  Qed.

  (** Looking up the kind of a symbol. *)
  Lemma Dsym_kind {A} pre s x (k : string -> res A) (u : A) : Dsym pre [] s ->
    ((match sym x s with None => Err AttrErr | Some t => do q <- stype_name t; k q end) = Ok u <->
     exists q, declared N f q x /\ k q = Ok u).
  Proof.
    intros [_ H]; rewrite H; split.
    - destruct (lookup x (m_decls f)) as [q|] eqn:E.
      + cbn [stype_name bind]; intros Hk; exists q; split; [apply declared_lookup; exact E|exact Hk].
      + destruct (mem x builtin_names); [discriminate|]; destruct (mem x (keys pre)); discriminate.
    - intros (q & Hq & Hk); apply declared_lookup in Hq; rewrite Hq; exact Hk.
  Qed.

  Lemma mem_keys_snoc (pre : list (assignment N)) x e y :
    mem y (keys (pre ++ [(x, e)])) = mem y (keys pre) || String.eqb y x.
  Proof.
    unfold assignment, keys; rewrite map_app; cbn [map fst]; unfold mem; rewrite existsb_app; cbn [existsb].
    rewrite orb_false_r; reflexivity.
  Qed.
  Lemma in_keys_snoc (pre : list (assignment N)) x e y :
    In y (keys (pre ++ [(x, e)])) <-> In y (keys pre) \/ y = x.
  Proof.
    rewrite <- !mem_In, mem_keys_snoc, orb_true_iff, String.eqb_eq; reflexivity.
  Qed.

  (** ** Assignments *)
  Definition Passign (pre : list (assignment N)) (a : assignment N) : Prop :=
    let (x, e) := a in
    (declared N f "parameters" x \/ ~ is_declared N f x /\ ~ In x (keys pre) /\ ~ predefined x) /\
    uses N (fun y => is_declared N f y \/ In y (keys pre) \/ y = x \/ predefined y) (dated N f) e.

  Lemma assigns_run s : Ddecl (m_decls f) s ->
    ((exists s', foldM (check_assign N) s (m_params f) = Ok s') <-> assigns_ok N f) /\
    (forall s', foldM (check_assign N) s (m_params f) = Ok s' -> Dsym (m_params f) [] s').
  Proof.
    intros Hs; apply Dsym_decl in Hs.
    assert (fresh : forall pre s x, Dsym pre [] s ->
      (sym x s = None <-> ~ is_declared N f x /\ ~ In x (keys pre) /\ ~ predefined x)).
    { intros pre s0 x HD; pose proof (Dsym_seen pre [] s0 x HD) as E; unfold seen in E; cbn [In] in E.
      destruct (sym x s0); split; intros H; try discriminate; try reflexivity.
      - exfalso; destruct E as [E _]; specialize (E ltac:(discriminate)); tauto.
      - assert (~ (is_declared N f x \/ In x (keys pre) \/ predefined x \/ False)) by (intros G; apply E in G; congruence); tauto. }
    assert (Dins : forall pre s x e, Dsym pre [] s -> sym x s = None -> Dsym (pre ++ [(x, e)]) [] (insert x TyString s)).
    { intros pre s0 x e HD E; destruct (proj1 (fresh _ _ _ HD) E) as (F1 & F2 & F3); destruct HD as [Hne HD].
      split; [apply insert_ne; exact Hne|]; intros y; rewrite sym_insert by exact Hne.
      rewrite mem_keys_snoc; destruct (String.eqb_spec y x) as [->|Ny].
      - rewrite is_declared_lookup in F1; destruct (lookup x (m_decls f)); [exfalso; apply F1; discriminate|].
        rewrite <- builtin_iff in F3; destruct (mem x builtin_names); [congruence|].
        rewrite orb_true_r; reflexivity.
      - rewrite orb_false_r; apply HD. }
    assert (Dkeep : forall pre s x e k, Dsym pre [] s -> lookup x (m_decls f) = Some k -> Dsym (pre ++ [(x, e)]) [] s).
    { intros pre s0 x e k [Hne HD] E; split; [exact Hne|]; intros y; rewrite HD.
      destruct (lookup y (m_decls f)) eqn:Ey; [reflexivity|].
      rewrite mem_keys_snoc; destruct (String.eqb_spec y x) as [->|Ny]; [congruence|]; rewrite orb_false_r; reflexivity. }
    destruct (foldM_gen _ _ (check_assign N) (fun pre s => Dsym pre [] s) (fun _ => True) Passign) with (l := m_params f) (pre := @nil (assignment N)) (b := s) as [H1 H2].
    - intros pre s0 [x e] HD _ [HP HU]; cbn [check_assign].
      destruct (sym x s0) as [t|] eqn:E.
      + destruct HP as [HP|HP]; [|apply (fresh _ _ _ HD) in HP; congruence].
        apply declared_lookup in HP; destruct HD as [Hne HD]; rewrite HD, HP in E; injection E as <-.
        cbn [stype_name bind String.eqb].
        replace (String.eqb "parameters" "parameters") with true by reflexivity.
        assert (HU' : check_expr N s0 e = Ok tt).
        { apply (Dsym_expr pre [] s0 e (conj Hne HD)); revert HU; apply uses_ext; [|tauto].
          intros y; cbn [In]; assert (is_declared N f x) by (apply is_declared_lookup; congruence).
          split; [tauto|intros [?|[?|[->|?]]]; tauto]. }
        rewrite HU'; cbn [bind]; eexists; split; [reflexivity|]; eapply Dkeep; [exact (conj Hne HD)|exact HP].
      + assert (HU' : check_expr N (insert x TyString s0) e = Ok tt).
        { apply (Dsym_expr _ [] _ e (Dins pre s0 x e HD E)); revert HU; apply uses_ext; [|tauto].
          intros y; rewrite in_keys_snoc; cbn [In]; split; [tauto|].
          intros [?|[?|[?|?]]]; auto; tauto. }
        cbv zeta; rewrite HU'; cbn [bind]; eexists; split; [reflexivity|apply Dins; assumption].
    - intros pre s0 [x e] s' HD _ H; cbn [check_assign Passign] in *.
      destruct (sym x s0) as [t|] eqn:E.
      + destruct (Dsym_kind pre s0 x (fun q => if String.eqb q "parameters" then do _ <- check_expr N s0 e; Ok s0 else Err TypeErr) s' HD) as [Hk _].
        rewrite E in Hk; specialize (Hk H) as (q & Hq & Hk).
        destruct (String.eqb_spec q "parameters") as [->|]; [|discriminate].
        apply bind_ok in Hk as ([] & Hu & _); apply (Dsym_expr _ _ _ _ HD) in Hu.
        split; [left; exact Hq|]; revert Hu; apply uses_ext; [|tauto]; intros y; cbn [In].
        assert (is_declared N f x) by (exists "parameters"%string; exact Hq).
        split; [intros [?|[?|[->|?]]]; tauto|tauto].
      + apply bind_ok in H as ([] & Hu & _); apply (Dsym_expr _ _ _ _ (Dins _ _ _ e HD E)) in Hu.
        split; [right; apply (fresh _ _ _ HD); exact E|]; revert Hu; apply uses_ext; [|tauto]; intros y.
        rewrite in_keys_snoc; cbn [In]; split; [|tauto].
        intros [?|[?|[?|?]]]; auto; tauto.
    - apply Forall_forall; auto.
    - exact Hs.
    - cbn [app] in *; split; [|exact H2]; rewrite H1; unfold assigns_ok, Passign; split.
      + intros H pre x e post E; exact (H pre (x, e) post E).
      + intros H p [x e] q E; exact (H p x e q E).
  Qed.

  (** ** The model block *)
  Definition Pstmt (pre : list (statement N)) (st : statement N) : Prop :=
    let vis x := global N f x \/ In x (locals N pre) in
    match st with
    | SLocal x e => ~ vis x /\ uses N vis (dated N f) e
    | SEq _ l r => uses N vis (dated N f) l /\ uses N vis (dated N f) r
    end.

  Lemma model_run s : Dsym (m_params f) [] s ->
    ((exists s', check_model N s (m_stmts f) = Ok s') <-> model_ok N f) /\
    (forall s', check_model N s (m_stmts f) = Ok s' -> s' = s).
  Proof.
    intros Hs.
    set (D := fun pre (t : tables) => tl t = s /\ Dsym (m_params f) (locals N pre) t).
    assert (Hvis : forall loc x, (is_declared N f x \/ In x (keys (m_params f)) \/ predefined x \/ In x loc) <->
                   (global N f x \/ In x loc)) by (intros; unfold global; tauto).
    destruct (foldM_gen _ _ (check_stmt N) D (fun _ => True) Pstmt) with (l := m_stmts f) (pre := @nil (statement N)) (b := builtins :: s) as [H1 H2].
    - intros pre t st (Ht & HD) _ HP; unfold D; destruct st as [x e|tag l r]; cbn [check_stmt Pstmt] in *.
      + destruct HP as [HN HU].
        assert (E : sym x t = None).
        { pose proof (Dsym_seen _ _ _ x HD) as Es; rewrite Hvis in Es; unfold seen in Es.
          destruct (sym x t); [exfalso; apply HN, Es; discriminate|reflexivity]. }
        rewrite E.
        assert (Hc : check_expr N t e = Ok tt).
        { apply (Dsym_expr _ _ _ _ HD); revert HU; apply uses_ext; [|tauto]; intros y; first [apply Hvis | symmetry; apply Hvis]. }
        rewrite Hc; cbn [bind]; eexists; split; [reflexivity|].
        destruct HD as [Hne HD]; split; [destruct t; [congruence|exact Ht]|]; split; [apply insert_ne; exact Hne|].
        intros y; rewrite sym_insert by exact Hne.
        assert (El : locals N (pre ++ [SLocal x e]) = locals N pre ++ [x])
          by (unfold locals; rewrite flat_map_app; reflexivity).
        rewrite El.
        assert (Em : mem y (locals N pre ++ [x]) = mem y (locals N pre) || String.eqb y x).
        { unfold mem; rewrite existsb_app; cbn [existsb]; rewrite orb_false_r; reflexivity. }
        rewrite Em, HD; destruct (String.eqb_spec y x) as [->|Ny].
        * rewrite HD in E; destruct (lookup x (m_decls f)); [discriminate|].
          destruct (mem x builtin_names); [discriminate|]; destruct (mem x (keys (m_params f))); [discriminate|].
          rewrite orb_true_r; reflexivity.
        * rewrite orb_false_r; reflexivity.
      + destruct HP as [HL HR].
        assert (Hl : check_expr N t l = Ok tt).
        { apply (Dsym_expr _ _ _ _ HD); revert HL; apply uses_ext; [|tauto]; intros y; first [apply Hvis | symmetry; apply Hvis]. }
        assert (Hr : check_expr N t r = Ok tt).
        { apply (Dsym_expr _ _ _ _ HD); revert HR; apply uses_ext; [|tauto]; intros y; first [apply Hvis | symmetry; apply Hvis]. }
        rewrite Hl, Hr; cbn [bind]; eexists; split; [reflexivity|]; split; [exact Ht|].
        assert (El : locals N (pre ++ [SEq tag l r]) = locals N pre)
          by (unfold locals; rewrite flat_map_app; cbn [flat_map]; rewrite !app_nil_r; reflexivity).
        rewrite El; exact HD.
    - intros pre t st t' (Ht & HD) _ H; destruct st as [x e|tag l r]; cbn [check_stmt Pstmt] in *.
      + destruct (sym x t) eqn:E; [discriminate|]; apply bind_ok in H as ([] & Hu & _).
        pose proof (Dsym_seen _ _ _ x HD) as Es; rewrite Hvis in Es; unfold seen in Es.
        split; [intros G; apply Es in G; congruence|].
        apply (Dsym_expr _ _ _ _ HD) in Hu; revert Hu; apply uses_ext; [|tauto]; intros y; first [apply Hvis | symmetry; apply Hvis].
      + apply bind_ok in H as ([] & Hl & H); apply bind_ok in H as ([] & Hr & _).
        apply (Dsym_expr _ _ _ _ HD) in Hl; apply (Dsym_expr _ _ _ _ HD) in Hr.
        split; [revert Hl|revert Hr]; (apply uses_ext; [|tauto]; intros y; first [apply Hvis | symmetry; apply Hvis]).
    - apply Forall_forall; auto.
    - split; [reflexivity|]; destruct Hs as [Hne Hs]; split; [discriminate|]; intros x.
      assert (Ex : sym x (builtins :: s) = match sym x [builtins] with Some t => Some t | None => sym x s end)
        by (cbn [sym]; destruct (lookup x builtins); reflexivity).
      rewrite Ex, sym_builtins, Hs; cbn [locals flat_map].
      destruct (mem x builtin_names) eqn:Eb; [|reflexivity].
      destruct (lookup x (m_decls f)) eqn:El; [apply declared_not_builtin in El; congruence|reflexivity].
    - cbn [app] in *; unfold check_model; split.
      + assert (E : (exists s', (do s' <- foldM (check_stmt N) (builtins :: s) (m_stmts f); Ok (tl s')) = Ok s') <->
                    exists s', foldM (check_stmt N) (builtins :: s) (m_stmts f) = Ok s').
        { split; [intros (s' & H); apply bind_ok in H as (t & H & _); eauto|intros (s' & ->); cbn [bind]; eauto]. }
        rewrite E, H1; reflexivity.
      + intros s' H; apply bind_ok in H as (t & H & Hs'); injection Hs' as <-; exact (proj1 (H2 t H)).
  Qed.

  (** ** Behind the model block *)
  Lemma foldM_unit {A} (g : unit -> A -> res unit) (P : A -> Prop) l :
    (forall a, g tt a = Ok tt <-> P a) -> (foldM g tt l = Ok tt <-> forall a, In a l -> P a).
  Proof.
    intros H; induction l as [|a l IH]; cbn [foldM In]; [split; [contradiction|reflexivity]|]; split.
    - intros E; apply bind_ok in E as ([] & E1 & E2); apply H in E1; rewrite IH in E2.
      intros b [<-|Hb]; auto.
    - intros Hall; rewrite (proj2 (H a)) by auto; cbn [bind]; apply IH; auto.
  Qed.

  Lemma global_uses s e : Dsym (m_params f) [] s -> (check_expr N s e = Ok tt <-> uses N (global N f) (dated N f) e).
  Proof.
    intros HD; rewrite (Dsym_expr _ _ _ _ HD); apply uses_ext; [|tauto]; intros x; unfold global; cbn [In]; tauto.
  Qed.

  Lemma bound_iff s b : Dsym (m_params f) [] s ->
    (check_boundary N s b = Ok tt <->
     forall a l x e, b = Some (a, l) -> In (x, e) l -> declared N f "var" x /\ uses N (global N f) (dated N f) e).
  Proof.
    intros HD; destruct b as [[a l]|]; cbn [check_boundary]; [|split; [discriminate|reflexivity]].
    rewrite (foldM_unit (check_bound N s) (fun p => declared N f "var" (fst p) /\ uses N (global N f) (dated N f) (snd p))).
    - split.
      + intros H a' l' x e E Hin; injection E as <- <-; exact (H (x, e) Hin).
      + intros H [x e] Hin; exact (H a l x e eq_refl Hin).
    - intros [x e]; cbn [check_bound fst snd].
      rewrite (Dsym_kind _ s x (fun k => if String.eqb k "var" then check_expr N s e else Err TypeErr) tt HD).
      rewrite <- (global_uses s e HD); split.
      + intros (q & Hq & Hk); destruct (String.eqb_spec q "var") as [->|]; [auto|discriminate].
      + intros [Hq Hk]; exists "var"%string; split; [exact Hq|exact Hk].
  Qed.

  Lemma shock_symbol_iff s x : Dsym (m_params f) [] s ->
    (check_shock_symbol s x = Ok tt <-> shock_name N f x).
  Proof.
    intros HD; unfold check_shock_symbol, shock_name.
    rewrite (Dsym_kind _ s x (fun k => if mem k ["varexo"; "varexo_det"]%string then Ok tt else Err TypeErr) tt HD); split.
    - intros (q & Hq & Hk); destruct (mem q ["varexo"; "varexo_det"]%string) eqn:E; [|discriminate].
      apply mem_In in E as [<-|[<-|[]]]; auto.
    - intros [H|H]; eexists; (split; [exact H|reflexivity]).
  Qed.

  Lemma actions_iff s : Dsym (m_params f) [] s ->
    (check_actions N s (m_actions f) = Ok tt <-> bounds_ok N f /\ shocks_ok N f).
  Proof.
    intros HD; unfold check_actions, bounds_ok, shocks_ok; cbn [In].
    assert (HB : (check_boundary N s (a_initval (m_actions f)) = Ok tt /\
                  check_boundary N s (a_endval (m_actions f)) = Ok tt /\
                  check_boundary N s (a_histval (m_actions f)) = Ok tt) <-> bounds_ok N f).
    { rewrite !(bound_iff s _ HD); unfold bounds_ok; cbn [In]; split.
      - intros (H1 & H2 & H3) a l x e [H|[H|[H|[]]]]; [exact (H1 a l x e H)|exact (H2 a l x e H)|exact (H3 a l x e H)].
      - intros H; split; [|split]; intros a l x e E; apply (H a l x e); auto. }
    assert (HS : (match a_shocks (m_actions f) with None => Err GenericErr | Some (_, l) => foldM (check_shock N s) tt l end) = Ok tt
                 <-> shocks_ok N f).
    { unfold shocks_ok; destruct (a_shocks (m_actions f)) as [[args l]|].
      - rewrite (foldM_unit (check_shock N s) (fun h => match h with
          | ShCorr x y e | ShCov x y e => shock_name N f x /\ shock_name N f y /\ uses N (global N f) (dated N f) e
          | ShVar x e | ShStd x e => shock_name N f x /\ uses N (global N f) (dated N f) e
          | ShDet _ _ _ => False end)).
        + split.
          * intros H; exists args, l; auto.
          * intros (args' & l' & E & H); injection E as <- <-; exact H.
        + intros [x y e|x y e|x e|x e|x p v]; cbn [check_shock]; rewrite <- ?(global_uses s _ HD), <- ?(shock_symbol_iff s _ HD).
          * split; [intros H; apply bind_ok in H as ([] & H1 & H); apply bind_ok in H as ([] & H2 & H); auto|intros (-> & H2 & ->); exact H2].
          * split; [intros H; apply bind_ok in H as ([] & H1 & H); apply bind_ok in H as ([] & H2 & H); auto|intros (-> & H2 & ->); exact H2].
          * split; [intros H; apply bind_ok in H as ([] & H1 & H); auto|intros (-> & H2); exact H2].
          * split; [intros H; apply bind_ok in H as ([] & H1 & H); auto|intros (-> & H2); exact H2].
          * split; [intros H; apply bind_ok in H as ([] & H1 & H); discriminate|contradiction].
      - split; [discriminate|intros (? & ? & E & _); discriminate]. }
    rewrite <- HS; fold (bounds_ok N f); unfold bounds_ok in HB; cbn [In] in HB; rewrite <- HB; clear HS HB.
    split.
    - intros H; apply bind_ok in H as ([] & H1 & H); apply bind_ok in H as ([] & H2 & H); apply bind_ok in H as ([] & H3 & H); auto.
    - intros ((-> & -> & ->) & H); exact H.
  Qed.
End Proofs.

Theorem verify_iff N (f : modfile N) :
  Forall (fun d => In (snd d) var_kinds) (m_decls f) ->
  (verify N f = Ok tt <-> well_declared N f).
Proof.
  intros K; unfold verify, well_declared; split.
  - intros H; apply bind_ok in H as (s1 & H1 & H); apply bind_ok in H as (s2 & H2 & H); apply bind_ok in H as (s3 & H3 & H).
    destruct (decls_run N f K) as [D1 D2].
    assert (HD : decls_ok N f) by (apply D1; eauto); specialize (D2 s1 H1).
    destruct (assigns_run N f HD s1 D2) as [A1 A2].
    assert (HA : assigns_ok N f) by (apply A1; eauto); specialize (A2 s2 H2).
    destruct (model_run N f HD s2 A2) as [M1 M2].
    assert (HM : model_ok N f) by (apply M1; eauto); specialize (M2 s3 H3); subst s3.
    apply (actions_iff N f HD s2 A2) in H as [HB HS]; auto.
  - intros (HD & HA & HM & HB & HS).
    destruct (decls_run N f K) as [D1 D2]; destruct (proj2 D1 HD) as (s1 & H1); rewrite H1; cbn [bind].
    specialize (D2 s1 H1); destruct (assigns_run N f HD s1 D2) as [A1 A2].
    destruct (proj2 A1 HA) as (s2 & H2); rewrite H2; cbn [bind]; specialize (A2 s2 H2).
    destruct (model_run N f HD s2 A2) as [M1 M2]; destruct (proj2 M1 HM) as (s3 & H3); rewrite H3; cbn [bind].
    rewrite (M2 s3 H3); apply (actions_iff N f HD s2 A2); auto.
Qed.
