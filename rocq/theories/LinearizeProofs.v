(** The linearised model: proofs. *)
From Verif Require Import Base Syntax Lexer Parser Eval EvalProofs ModFileSpec Semantics SemanticsSpec SemanticsProofs
  Factory FactorySpec FactoryProofs Indexing IndexingSpec IndexingProofs IndexingProofs2 DynFunc DynSpec DynProofs DynProofs2 DynProofs3 PropFile PropDyn
  Nd SimSpec NdProofs OrderProofs CalcSpec CalcProofs CalcProofs2 CalcProofs3 Linearize LinearizeSpec EvalSpec.
From Coq Require Import Ring Field.

Section Tame.
  Variable F : Type.
  Variable O : rops F.
  Variable fns : string -> smooth_fun F.
  Variable pows : F -> smooth_fun F.
  Variable fixed : string -> Prop.
  Lemma tame_ext (rho rho' : string -> F -> Prop) (rt rt' : string -> Z -> F -> Prop) e v :
    (forall x w, occurs F x e -> rho x w -> rho' x w) -> (forall x k w, occurs_t F x k e -> rt x k w -> rt' x k w) ->
    tame F O fns pows fixed rho rt e v -> tame F O fns pows fixed rho' rt' e v.
  Proof.
    intros H1 H2 H; revert H1 H2.
    induction H as [v|x v Hx|x k v Hx|e v He IH|e v He IH|l r v u Hl IHl Hr IHr|l r v u Hl IHl Hr IHr|l r v u Hl IHl Hr IHr|l r v u Hl IHl Hr IHr N
      |l r v k Hl IHl Hr IHr Hc Hd|l r v u Hl IHl Hr IHr Hd Hd'|f g e v Hg He IH Hd]; intros H1 H2.
    - constructor.
    - constructor; apply H1; [constructor|exact Hx].
    - constructor; apply H2; [constructor|exact Hx].
    - constructor; apply IH; intros; [apply H1|apply H2]; try assumption; constructor; assumption.
    - constructor; apply IH; intros; [apply H1|apply H2]; try assumption; constructor; assumption.
    - constructor; [apply IHl|apply IHr]; intros; first [apply H1; [first [apply O_binl; assumption|apply O_binr; assumption]|assumption]|apply H2; [first [apply T_binl; assumption|apply T_binr; assumption]|assumption]].
    - constructor; [apply IHl|apply IHr]; intros; first [apply H1; [first [apply O_binl; assumption|apply O_binr; assumption]|assumption]|apply H2; [first [apply T_binl; assumption|apply T_binr; assumption]|assumption]].
    - constructor; [apply IHl|apply IHr]; intros; first [apply H1; [first [apply O_binl; assumption|apply O_binr; assumption]|assumption]|apply H2; [first [apply T_binl; assumption|apply T_binr; assumption]|assumption]].
    - constructor; [apply IHl|apply IHr|exact N]; intros; first [apply H1; [first [apply O_binl; assumption|apply O_binr; assumption]|assumption]|apply H2; [first [apply T_binl; assumption|apply T_binr; assumption]|assumption]].
    - apply S_pow; [apply IHl|apply IHr|exact Hc|exact Hd]; intros; first [apply H1; [first [apply O_binl; assumption|apply O_binr; assumption]|assumption]|apply H2; [first [apply T_binl; assumption|apply T_binr; assumption]|assumption]].
    - apply S_power; [apply IHl|apply IHr|exact Hd|exact Hd']; intros; first [apply H1; [first [apply O_binl; assumption|apply O_binr; assumption]|assumption]|apply H2; [first [apply T_binl; assumption|apply T_binr; assumption]|assumption]].
    - apply S_fun; [exact Hg|apply IH|exact Hd]; intros; [apply H1|apply H2]; try assumption; constructor; assumption.
  Qed.
End Tame.

Lemma mapM_nth {A B} (f : A -> res B) (R : A -> B -> Prop) l :
  (forall a, In a l -> exists b, f a = Ok b /\ R a b) -> exists r, mapM f l = Ok r /\ Forall2 R l r.
Proof.
  induction l as [|a l IH]; intros H; [exists []; split; [reflexivity|constructor]|].
  destruct (H a (or_introl eq_refl)) as (b & E & Rb); destruct IH as (r & Er & Rr); [intros a' Ha; apply H; right; exact Ha|].
  exists (b :: r); cbn [mapM]; rewrite E, Er; split; [reflexivity|constructor; assumption].
Qed.
Lemma Forall2_len {A B} (R : A -> B -> Prop) l r : Forall2 R l r -> List.length l = List.length r.
Proof. induction 1; cbn [List.length]; congruence. Qed.
Lemma Forall2_get {A B} (R : A -> B -> Prop) l r i a : Forall2 R l r -> nth_error l i = Some a -> exists b, nth_error r i = Some b /\ R a b.
Proof.
  intros H; revert i; induction H as [|a' b l r Hab H IH]; intros [|i] E; cbn [nth_error] in *; try discriminate; [injection E as <-; eauto|apply IH, E].
Qed.

(** The models that the equations are compiled for as C28 says: each variable is declared once,
    no name is another name followed by "m1" or "p1", every variable occurs, with offsets -1,
    0 and 1, no offset 0 is written out, and only endogenous variables have an offset. *)
Definition readable {F : Type} (endog stoch : list string) (exprs : list (ast F)) (params : list (string * F)) : Prop :=
  NoDup (endog ++ stoch) /\ no_clash F endog stoch params /\ regular_model F endog exprs /\
  Forall (fun e => well_formed F e /\ declared F endog stoch params e /\ offsets F e /\ forall x k, occurs_t F x k e -> In x endog) exprs /\
  (forall x, In x endog -> lookup x params = None).

Section Lin.
  Variable F : Type.
  Variable O : rops F.
  Variable inv : F -> F.
  Variable FT : is_field O inv.
  Variable le : F -> F -> Prop.
  Hypothesis OR : is_ordered O le.
  Variable P : ops F.
  Variable fns : string -> smooth_fun F.
  Variable pows : F -> smooth_fun F.
  Hypothesis HI : interprets F O le P fns pows.
  Variable endog stoch : list string.
  Variable exprs : list (ast F).
  Variable params : list (string * F).
  Hypothesis Nd : NoDup (endog ++ stoch).
  Hypothesis Nc : no_clash F endog stoch params.
  Hypothesis R : regular_model F endog exprs.
  Hypothesis W : Forall (fun e => well_formed F e /\ declared F endog stoch params e /\ offsets F e /\ forall x k, occurs_t F x k e -> In x endog) exprs.
  Hypothesis Dj : forall x, In x endog -> lookup x params = None.
  Variable ss : list F.
  Hypothesis Ls : List.length ss = List.length endog.
  Hypothesis Sm : smooth_at F O endog stoch exprs params fns pows ss.
  Notation below := (CalcProofs2.below F O le).
  Notation fine := (CalcProofs2.fine F O).
  Notation val := (CalcProofs2.val F O).
  Notation pt := (CalcProofs3.pt F O).
  Notation fixed := (fun x : string => lookup x params <> None).
  Notation partial := (CalcSpec.partial F O le).
  Notation partial2 := (CalcSpec.partial2 F O le).
  Notation z := (r0 O).
  Let rho_s := steady_plain F endog stoch params z.

  Lemma Ne : NoDup endog.
  Proof.
    clear - Nd; induction endog as [|y l IH]; [constructor|]; cbn [app] in Nd; apply NoDup_cons_iff in Nd as [H1 H2]; constructor; [|exact (IH H2)].
    intros G; apply H1, in_app_iff; left; exact G.
  Qed.

  (** ** The dynamic equations *)
  Section Dyn.
    Variable l : list (nat * Z).
    Hypothesis Sg : signature F endog exprs l.
    Notation k := (List.length stoch).
    Notation m := (List.length l).
    Notation w := (List.length l + List.length stoch).
    Notation x0 := (rest_point F O stoch l ss).
    Notation res := (residual F P endog stoch params l).
    Let rho (y : list F) := plain F endog stoch params l (firstn m y) (skipn m y).
    Let rho_t (y : list F) := at_time F endog l (firstn m y).

    Lemma rest_length : List.length x0 = w.
    Proof. unfold rest_point; rewrite app_length, map_length, repeat_length; reflexivity. Qed.
    Lemma firstn_get (y : list F) j : List.length y = w -> j < m -> nth_error (firstn m y) j = Some (nth j y z).
    Proof.
      intros Hy Hj; rewrite <- (firstn_skipn m y) at 2; rewrite app_nth1 by (rewrite firstn_length; lia).
      apply nth_error_nth'; rewrite firstn_length; lia.
    Qed.
    Lemma skipn_get (y : list F) s : List.length y = w -> s < k -> nth_error (skipn m y) s = Some (nth (m + s) y z).
    Proof.
      intros Hy Hs; rewrite <- (firstn_skipn m y) at 2; rewrite app_nth2 by (rewrite firstn_length; lia).
      rewrite firstn_length; replace (m + s - Nat.min m (List.length y)) with s by lia; apply nth_error_nth'; rewrite skipn_length; lia.
    Qed.
    Lemma leaf_dyn a x v : List.length a = w -> rho a x v ->
      (forall y, List.length y = w -> rho y x v) \/ (~ fixed x /\ named F O w a (fun y => rho y x) v).
    Proof.
      intros La; unfold rho, plain; destruct (lookup x params) as [q|] eqn:E.
      - intros ->; left; intros; reflexivity.
      - intros [(i & j & Hi & Hj & Hv)|(s & Hs & Hv)]; right; (split; [intros G; apply G; reflexivity|]).
        + assert (Lj : j < m) by (apply nth_error_Some; congruence).
          rewrite firstn_get in Hv by assumption; injection Hv as <-.
          exists j; split; [lia|]; split; [reflexivity|]; intros y Hy; left; exists i, j; split; [exact Hi|]; split; [exact Hj|apply firstn_get; assumption].
        + assert (Lj : s < k) by (apply nth_error_Some; congruence).
          rewrite skipn_get in Hv by assumption; injection Hv as <-.
          exists (m + s); split; [lia|]; split; [reflexivity|]; intros y Hy; right; exists s; split; [exact Hs|apply skipn_get; assumption].
    Qed.
    Lemma leaf_dyn_t a x q v : List.length a = w -> rho_t a x q v -> named F O w a (fun y => rho_t y x q) v.
    Proof.
      intros La (i & j & Hi & Hj & Hv).
      assert (Lj : j < m) by (apply nth_error_Some; congruence).
      rewrite firstn_get in Hv by assumption; injection Hv as <-.
      exists j; split; [lia|]; split; [reflexivity|]; intros y Hy; exists i, j; split; [exact Hi|]; split; [exact Hj|apply firstn_get; assumption].
    Qed.
    Lemma rest_first : firstn m x0 = map (fun p => nth (fst p) ss z) l.
    Proof. unfold rest_point; rewrite firstn_app, map_length, Nat.sub_diag, firstn_all2 by (rewrite map_length; lia); cbn [firstn]; apply app_nil_r. Qed.
    Lemma rest_second : skipn m x0 = repeat z k.
    Proof. unfold rest_point; rewrite skipn_app, map_length, Nat.sub_diag, skipn_all2 by (rewrite map_length; lia); reflexivity. Qed.
    Lemma rest_get i q v : In (i, q) l -> nth_error ss i = Some v -> exists j, nth_error l j = Some (i, q) /\ nth_error (firstn m x0) j = Some v.
    Proof.
      intros H Hv; apply In_nth_error in H as (j & Hj); exists j; split; [exact Hj|].
      rewrite rest_first, nth_error_map, Hj; cbn [option_map fst]; f_equal; apply nth_error_nth, Hv.
    Qed.
    Lemma steady_dyn e x v : In e exprs -> occurs F x e -> rho_s ss x v -> rho x0 x v.
    Proof.
      intros He Hx; unfold rho_s, rho, steady_plain, plain; destruct (lookup x params); [auto|].
      intros [(i & Hi & Hv)|[Hs ->]]; [left|right].
      - destruct (rest_get i 0%Z v) as (j & Hj & Gj); [apply Sg; exists x, e; split; [exact Hi|]; split; [exact He|apply occurs_at_period, Hx]|exact Hv|].
        exists i, j; auto.
      - apply In_nth_error in Hs as (s & Hs); exists s; split; [exact Hs|]; rewrite rest_second.
        assert (Lj : s < k) by (apply nth_error_Some; congruence).
        rewrite (nth_error_nth' _ z) by (rewrite repeat_length; exact Lj); rewrite nth_repeat; reflexivity.
    Qed.
    Lemma steady_dyn_t e x q v : In e exprs -> occurs_t F x q e -> rho_s ss x v -> rho_t x0 x q v.
    Proof.
      intros He Hx; destruct (proj1 (Forall_forall _ _) W e He) as (_ & _ & _ & T); pose proof (T x q Hx) as Hn.
      unfold rho_s, rho_t, steady_plain, at_time; rewrite (Dj x Hn).
      intros [(i & Hi & Hv)|[Hs _]]; [|exfalso; exact (NoDup_app_not _ _ x Nd Hn Hs)].
      destruct (rest_get i q v) as (j & Hj & Gj); [apply Sg; exists x, e; split; [exact Hi|]; split; [exact He|apply occurs_t_at_period, Hx]|exact Hv|].
      exists i, j; auto.
    Qed.
    Definition represents (e : ast F) (x : ex F) : Prop :=
      below w x /\ fine x (pt x0) /\ (forall y, List.length y = w -> fine x (pt y) -> res e y (val x (pt y))) /\
      forall v, steady_residual F O P endog stoch params e ss v -> val x (pt x0) = v.
    Lemma steady_unique e v v' : In e exprs -> steady_residual F O P endog stoch params e ss v -> steady_residual F O P endog stoch params e ss v' -> v = v'.
    Proof.
      clear rho rho_t; intros He H1 H2; destruct (proj1 (Forall_forall _ _) W e He) as ((We & Wa & Wf) & Wd & _).
      apply (steady_value F P z endog stoch params Nd ss Ls e) in H1; try assumption.
      apply (steady_value F P z endog stoch params Nd ss Ls e) in H2; try assumption; congruence.
    Qed.
    Lemma tame_value rho1 rt1 e v : tame F O fns pows fixed rho1 rt1 e v -> EvalSpec.value F P rho1 rt1 e v.
    Proof.
      induction 1 as [v|x v Hx|x q v Hx|e v He IH|e v He IH|le' r v u Hl IHl Hr IHr|le' r v u Hl IHl Hr IHr|le' r v u Hl IHl Hr IHr|le' r v u Hl IHl Hr IHr N
        |le' r v q Hl IHl Hr IHr Hc Hd|le' r v u Hl IHl Hr IHr Hd Hd'|f g e v Hg He IH Hd]; try (constructor; assumption); econstructor; try eassumption.
      - apply (i_pos _ _ _ _ _ _ HI). - apply (i_neg _ _ _ _ _ _ HI). - apply (i_add _ _ _ _ _ _ HI). - apply (i_sub _ _ _ _ _ _ HI). - apply (i_mul _ _ _ _ _ _ HI).
      - apply (i_div _ _ _ _ _ _ HI), N. - apply (i_pow _ _ _ _ _ _ HI), Hd. - apply (i_power _ _ _ _ _ _ HI); assumption. - apply (i_fun _ _ _ _ _ _ HI), Hd.
    Qed.
    Lemma represented e : In e exprs -> exists x, represents e x.
    Proof.
      intros He; destruct (proj1 (Forall_forall _ _) Sm e He) as (v & T).
      pose proof (tame_value _ _ _ _ T) as V; cbn beta in V.
      assert (T' : tame F O fns pows fixed (rho x0) (rho_t x0) e v).
      { revert T; apply tame_ext; [intros x u Hx; apply (steady_dyn e x u He Hx)|intros x q u Hx; apply (steady_dyn_t e x q u He Hx)]. }
      destruct (tame_ex F O inv FT le OR P fns pows HI fixed w rho rho_t x0 rest_length
        (fun x u => leaf_dyn x0 x u rest_length) (fun x q u => leaf_dyn_t x0 x q u rest_length) e v T') as (x & B & Fn & E & G & _).
      exists x; split; [exact B|]; split; [exact Fn|]; split; [exact G|].
      intros v' V'; rewrite E; exact (steady_unique e v v' He V V').
    Qed.

    Variable grad : (list F -> Base.res F) -> list F -> Base.res (list F).
    Variable jacobian : (list F -> Base.res (list F)) -> list F -> Base.res (list (list F)).
    Hypothesis Hd : differentiates F O le P endog stoch exprs params grad jacobian l.
    Variable f : list F -> Base.res F.
    Variable e : ast F.
    Hypothesis He : In e exprs.
    Hypothesis Hf : computes F w f (res e).
    Variable x : ex F.
    Hypothesis Hx : represents e x.
    Lemma func_computes y : List.length y = w -> fine x (pt y) -> f y = Ok (val x (pt y)).
    Proof. clear Hd; intros Hy Fy; apply (Hf y Hy), Hx; assumption. Qed.
    Lemma grad_row y : List.length y = w -> fine x (pt y) ->
      exists r, grad f y = Ok r /\ List.length r = w /\ forall c, c < w -> nth_error r c = Some (d1 F O x c (pt y)).
    Proof.
      intros Hy Fy; destruct (Hd e f He Hf) as [G _].
      assert (Pd : forall j, j < w -> partial (fun y v => f y = Ok v) y j (d1 F O x j (pt y))).
      { intros j Hj; apply (ex_partial F O inv FT le OR w x (proj1 Hx)); [exact func_computes|exact Hy|exact Fy|exact Hj]. }
      destruct (G y Hy) as (r & E & Lr & H); [intros j Hj; exists (d1 F O x j (pt y)); auto|].
      exists r; split; [exact E|]; split; [exact Lr|]; intros c Hc; apply H; auto.
    Qed.
    Lemma jacobian_rows :
      exists M, jacobian (grad f) x0 = Ok M /\ List.length M = w /\ Forall (fun r => List.length r = w) M /\
        forall c d, c < w -> d < w -> exists r, nth_error M c = Some r /\ nth_error r d = Some (d2 F O x c d (pt x0)).
    Proof.
      destruct (Hd e f He Hf) as [_ G]; pose proof (proj1 (proj2 Hx)) as Fx.
      assert (Pd : forall c d, c < w -> d < w -> partial (fun y v => exists r, grad f y = Ok r /\ nth_error r c = Some v) x0 d (d2 F O x c d (pt x0))).
      { intros c d Hc Hd'; pose proof (d1_jet F O inv FT le OR w (fun i t => pt (bump F O x0 d t) i) (pt x0) _ _ (bump_path F O inv FT le OR w x0 d rest_length) x c (proj1 Hx) Fx) as J.
        rewrite (E1_sum F O inv FT le w (pt x0) _ x c (proj1 Hx)), (sum_unit F O inv FT w (fun i => d2 F O x c i (pt x0)) d Hd') in J; destruct J as (s & V & E).
        exists (d1 F O x c (pt x0)), s; split; [exact V|].
        apply (near_two F O inv FT le OR) with (2 := ex_near F O inv FT le OR w x (proj1 Hx) x0 d rest_length Fx) (3 := E); intros t Ft <-.
        destruct (grad_row (bump F O x0 d t)) as (r & Er & _ & Gr); [rewrite bump_length; exact rest_length|exact Ft|].
        exists r; split; [exact Er|apply Gr, Hc]. }
      destruct (G x0 rest_length) as (M & E & L1 & L2 & H); [intros c j Hc Hj; eexists; apply Pd; assumption|].
      exists M; split; [exact E|]; split; [exact L1|]; split; [exact L2|]; intros c d Hc Hd'; apply H; auto.
    Qed.
  End Dyn.

  Variable grad : (list F -> Base.res F) -> list F -> Base.res (list F).
  Variable jacobian : (list F -> Base.res (list F)) -> list F -> Base.res (list (list F)).
  (** The arrays. *)
  Theorem arrays : (forall l, signature F endog exprs l -> differentiates F O le P endog stoch exprs params grad jacobian l) ->
    exists m lls J H xs, build F endog stoch exprs params = Ok m /\ set_lead_lags F endog exprs = Ok lls /\
      r_index F m = array (map snd lls) (List.length stoch) /\ signature F endog exprs (timed_vars (map snd lls)) /\
      let l := timed_vars (map snd lls) in
      let w := List.length l + List.length stoch in
      let x0 := rest_point F O stoch l ss in
      model_jacobian F P z grad m ss = Ok (M2 (List.length exprs) w J) /\
      model_hessian F P z grad jacobian m ss = Ok (M2 (List.length exprs) (w * w) (fun i p => H i (p / w) (p mod w))) /\
      Forall2 (represents l) exprs xs /\
      forall i x, nth_error xs i = Some x ->
        (forall c, c < w -> J i c = d1 F O x c (pt x0)) /\
        (forall c d, c < w -> d < w -> H i c d = d2 F O x c d (pt x0)).
  Proof.
    intros Hd'; assert (Ha : Forall (algebraic F) exprs) by (apply Forall_impl with (2 := W); intros e ((_ & H & _) & _); exact H).
    destruct (build_ok F endog exprs stoch params Ne R Ha) as (m & E & E1 & E2 & E3 & E4 & lls & El & Ei).
    pose proof (signature_timed F endog exprs lls R El) as Sg; specialize (Hd' _ Sg).
    set (l := timed_vars (map snd lls)) in *; set (w := List.length l + List.length stoch).
    assert (L : List.length endog = List.length (map snd lls)) by (rewrite map_length; symmetry; exact (lls_length F endog exprs lls El)).
    assert (Ep : steady_point F z m ss = rest_point F O stoch l ss).
    { unfold steady_point; rewrite Ei, E2, (stacked_array F z endog stoch _ L ss Ls); reflexivity. }
    assert (Lx : List.length (rest_point F O stoch l ss) = w) by apply rest_length.
    assert (Fs : Forall2 (fun e f => computes F w f (residual F P endog stoch params l e)) exprs (dynamic_funcs F P m)).
    { unfold dynamic_funcs; rewrite E1, E2, E3, E4, Ei, (dyn_vars_names _ _ _ _ L).
      assert (G : forall es, Forall (fun e => In e exprs) es ->
        Forall2 (fun e f => computes F w f (residual F P endog stoch params l e)) es
          (map (fun e => dynamic_func F P e (map (col_name endog) (timed_vars (map snd lls)) ++ stoch) params) es)).
      { induction 1 as [|e es He Hes IH]; cbn [map]; constructor; [|exact IH].
        destruct (proj1 (Forall_forall _ _) W e He) as ((We & Wa & Wf) & Wd & Wo & _).
        intros y Hy v; rewrite <- (firstn_skipn (List.length l) y) at 1.
        assert (L1 : List.length (firstn (List.length l) y) = List.length l) by (rewrite firstn_length; unfold w in Hy; lia).
        assert (L2 : List.length (skipn (List.length l) y) = List.length stoch) by (rewrite skipn_length; unfold w in Hy; lia).
        apply (dynamic_value F endog stoch params (map snd lls) L Nd Nc _ _ L1 P L2); assumption. }
      apply G, Forall_forall; auto. }
    assert (Xs : exists xs, Forall2 (represents l) exprs xs).
    { assert (G : forall es, Forall (fun e => In e exprs) es -> exists xs, Forall2 (represents l) es xs).
      { induction 1 as [|e es He Hes (xs & IH)]; [exists []; constructor|].
        destruct (represented l Sg e He) as (x & Hx); exists (x :: xs); constructor; assumption. }
      apply G, Forall_forall; auto. }
    destruct Xs as (xs & Xs).
    set (x0 := rest_point F O stoch l ss) in *.
    assert (Rows : exists rows, mapM (fun f => do r <- grad f x0; put_row F z w r) (dynamic_funcs F P m) = Ok rows /\
      Forall2 (fun x r => forall c, c < w -> nth_error r c = Some (d1 F O x c (pt x0))) xs rows).
    { assert (G : forall es fs ys, Forall (fun e => In e exprs) es -> Forall2 (fun e f => computes F w f (residual F P endog stoch params l e)) es fs -> Forall2 (represents l) es ys ->
        exists rows, mapM (fun f => do r <- grad f x0; put_row F z w r) fs = Ok rows /\ Forall2 (fun x r => forall c, c < w -> nth_error r c = Some (d1 F O x c (pt x0))) ys rows).
      { clear E1 E2 E3 E4; intros es fs ys Hes H; revert ys Hes; induction H as [|e f es fs Hf Hfs IH]; intros ys Hes Hy; inversion Hy as [|e' x es' ys' Hx Hys]; subst; [exists []; split; [reflexivity|constructor]|].
        inversion Hes as [|? ? He Hes']; subst; destruct (IH ys' Hes' Hys) as (rows & Er & Hr).
        destruct (grad_row l grad jacobian Hd' f e He Hf x Hx x0 Lx (proj1 (proj2 Hx))) as (r & Eg & Lr & Hc).
        exists (r :: rows); cbn [mapM]; rewrite Eg; cbn [bind]; unfold put_row at 1; rewrite Lr; fold w; rewrite Nat.eqb_refl; cbn [bind]; rewrite Er; split; [reflexivity|constructor; assumption]. }
      apply (G exprs); [apply Forall_forall; auto|exact Fs|exact Xs]. }
    destruct Rows as (rows & Er & Hr).
    assert (Mats : exists hs, mapM (fun f => do h <- jacobian (grad f) x0; if square F w h then Ok h else Err ValueErr) (dynamic_funcs F P m) = Ok hs /\
      Forall2 (fun x M => forall c d, c < w -> d < w -> exists r, nth_error M c = Some r /\ nth_error r d = Some (d2 F O x c d (pt x0))) xs hs).
    { assert (G : forall es fs ys, Forall (fun e => In e exprs) es -> Forall2 (fun e f => computes F w f (residual F P endog stoch params l e)) es fs -> Forall2 (represents l) es ys ->
        exists hs, mapM (fun f => do h <- jacobian (grad f) x0; if square F w h then Ok h else Err ValueErr) fs = Ok hs /\
          Forall2 (fun x M => forall c d, c < w -> d < w -> exists r, nth_error M c = Some r /\ nth_error r d = Some (d2 F O x c d (pt x0))) ys hs).
      { clear E1 E2 E3 E4; intros es fs ys Hes H; revert ys Hes; induction H as [|e f es fs Hf Hfs IH]; intros ys Hes Hy; inversion Hy as [|e' x es' ys' Hx Hys]; subst; [exists []; split; [reflexivity|constructor]|].
        inversion Hes as [|? ? He Hes']; subst; destruct (IH ys' Hes' Hys) as (hs & Eh & Hh).
        destruct (jacobian_rows l grad jacobian Hd' f e He Hf x Hx) as (M & Eg & L1 & L2 & Hc).
        exists (M :: hs); cbn [mapM]; fold x0 in Eg; rewrite Eg; cbn [bind].
        assert (Q : square F w M = true).
        { unfold square; rewrite L1; fold w; rewrite Nat.eqb_refl; apply forallb_forall; intros r Hin; apply Nat.eqb_eq, (proj1 (Forall_forall _ _) L2 r Hin). }
        rewrite Q; cbn [bind]; rewrite Eh; split; [reflexivity|constructor; assumption]. }
      apply (G exprs); [apply Forall_forall; auto|exact Fs|exact Xs]. }
    destruct Mats as (hs & Eh & Hh).
    assert (Nr : List.length rows = List.length exprs) by (rewrite <- (Forall2_len _ _ _ Hr); symmetry; apply (Forall2_len _ _ _ Xs)).
    assert (Nh : List.length hs = List.length exprs) by (rewrite <- (Forall2_len _ _ _ Hh); symmetry; apply (Forall2_len _ _ _ Xs)).
    exists m, lls, (fun i j => nth j (nth i rows []) z), (fun i c d => nth d (nth c (nth i hs []) []) z), xs.
    split; [exact E|]; split; [exact El|]; split; [exact Ei|]; split; [exact Sg|]; cbn zeta.
    split; [|split; [|split; [exact Xs|]]].
    - unfold model_jacobian, linearization_array; rewrite Ep; cbn zeta; rewrite Lx, Er; cbn [bind]; unfold stack_rows; rewrite Nr; reflexivity.
    - unfold model_hessian; rewrite Ep; cbn zeta; rewrite Lx, Eh; cbn [bind]; rewrite Nh; reflexivity.
    - intros i x Hx; split.
      + intros c Hc; destruct (Forall2_get _ _ _ _ _ Hr Hx) as (r & Hi & Gr).
        rewrite (nth_error_nth _ _ _ Hi); apply nth_error_nth, Gr, Hc.
      + intros c d Hc Hd; destruct (Forall2_get _ _ _ _ _ Hh Hx) as (M & Hi & Gr); destruct (Gr c d Hc Hd) as (r & Hc' & Hd'').
        rewrite (nth_error_nth _ _ _ Hi), (nth_error_nth _ _ _ Hc'); apply nth_error_nth, Hd''.
  Qed.

  Theorem expansion : (forall l, signature F endog exprs l -> differentiates F O le P endog stoch exprs params grad jacobian l) ->
    exists m lls J H, build F endog stoch exprs params = Ok m /\ set_lead_lags F endog exprs = Ok lls /\
      r_index F m = array (map snd lls) (List.length stoch) /\ signature F endog exprs (timed_vars (map snd lls)) /\
      let l := timed_vars (map snd lls) in
      let w := List.length l + List.length stoch in
      model_jacobian F P z grad m ss = Ok (M2 (List.length exprs) w J) /\
      model_hessian F P z grad jacobian m ss = Ok (M2 (List.length exprs) (w * w) (fun i p => H i (p / w) (p mod w))) /\
      (forall i e c d, nth_error exprs i = Some e -> c < w -> d < w -> H i c d = H i d c) /\
      forall (y : F -> list F) (b q : nat -> F),
        (forall t, List.length (y t) = w) ->
        (forall c, c < w -> jet2 F O le (fun t => nth c (y t) z) (nth c (rest_point F O stoch l ss) z) (b c) (q c)) ->
      forall i e, nth_error exprs i = Some e ->
        exists r v, near F O le (fun t => residual F P endog stoch params l e (y t) (r t)) /\
          steady_residual F O P endog stoch params e ss v /\ (forall v', steady_residual F O P endog stoch params e ss v' -> v = v') /\
          jet2 F O le r v (Nd.rsum F O w (fun c => rmul O (J i c) (b c)))
            (radd O (Nd.rsum F O w (fun c => rmul O (J i c) (q c)))
               (rdiv O (Nd.rsum F O w (fun c => Nd.rsum F O w (fun d => rmul O (H i c d) (rmul O (b c) (b d))))) (twice_one O))).
  Proof.
    intros Hd; destruct (arrays Hd) as (m & lls & J & H & xs & Em & El & Ei & Sg & EJ & EH & Fx & G).
    exists m, lls, J, H; split; [exact Em|]; split; [exact El|]; split; [exact Ei|]; split; [exact Sg|]; cbn zeta; split; [exact EJ|]; split; [exact EH|].
    split.
    { intros i e c d He Hc Hd'; destruct (Forall2_get _ _ _ i e Fx He) as (x & Hx & _); destruct (G i x Hx) as [_ G2]; rewrite !G2 by assumption; apply (d2_sym F O inv FT). }
    intros y b q Ly Hy i e He; destruct (Forall2_get _ _ _ i e Fx He) as (x & Hx & B & Fn & HR & HS); destruct (G i x Hx) as [G1 G2].
    destruct (val_expansion F O inv FT le OR _ (fun c t => nth c (y t) z) _ b q x Hy B Fn) as [N E].
    destruct (proj1 (Forall_forall _ _) Sm e (nth_error_In _ _ He)) as (v & T).
    apply tame_value in T.
    exists (fun t => val x (pt (y t))), v; split; [|split; [exact T|split; [intros v' T'; exact (steady_unique e v v' (nth_error_In _ _ He) T T')|]]].
    - revert N; apply near_mono; intros t Ft; apply HR; [apply Ly|exact Ft].
    - rewrite <- (HS v T).
      match goal with E : jet2 _ _ _ _ _ ?b1 (radd _ ?c1 (rdiv _ ?c2 _)) |- jet2 _ _ _ _ _ ?b1' (radd _ ?c1' (rdiv _ ?c2' _)) =>
        replace b1' with b1; [replace c1' with c1; [replace c2' with c2; [exact E|]|]|] end.
      + apply rsum_ext; intros c Hc; apply rsum_ext; intros d Hd'; cbn beta; rewrite G2 by assumption; reflexivity.
      + apply rsum_ext; intros c Hc; cbn beta; rewrite G1 by assumption; reflexivity.
      + apply rsum_ext; intros c Hc; cbn beta; rewrite G1 by assumption; reflexivity.
  Qed.

  (** ** The steady equations *)
  Lemma leaf_steady a x v : List.length a = List.length endog -> rho_s a x v ->
    (forall y, List.length y = List.length endog -> rho_s y x v) \/ (~ fixed x /\ named F O (List.length endog) a (fun y => rho_s y x) v).
  Proof.
    intros La; unfold rho_s, steady_plain; destruct (lookup x params) as [q|] eqn:E.
    - intros ->; left; intros; reflexivity.
    - intros [(i & Hi & Hv)|[Hs ->]].
      + right; split; [intros G; apply G; reflexivity|].
        exists i; split; [apply nth_error_Some; congruence|]; split; [symmetry; apply nth_error_nth, Hv|].
        intros y Hy; left; exists i; split; [exact Hi|]; apply nth_error_nth'; rewrite Hy; apply nth_error_Some; congruence.
      + left; intros y _; right; split; [exact Hs|reflexivity].
  Qed.
  Theorem steady_array : differentiates_steady F O le P endog stoch exprs params grad ->
    exists m J, build F endog stoch exprs params = Ok m /\
      steady_jacobian F P z grad m ss = Ok (M2 (List.length exprs) (List.length endog) J) /\
      forall i e c, nth_error exprs i = Some e -> c < List.length endog ->
        partial (steady_residual F O P endog stoch params e) ss c (J i c).
  Proof.
    intros Hd; assert (Ha : Forall (algebraic F) exprs) by (apply Forall_impl with (2 := W); intros e ((_ & H & _) & _); exact H).
    destruct (build_ok F endog exprs stoch params Ne R Ha) as (m & E & E1 & E2 & E3 & E4 & lls & El & Ei).
    set (rt := fun (y : list F) (x : string) (_ : Z) (v : F) => In x endog /\ rho_s y x v).
    assert (Row : forall e, In e exprs -> exists r, grad (steady_func F P z e endog params) ss = Ok r /\ List.length r = List.length endog /\
      forall c, c < List.length endog -> exists l, nth_error r c = Some l /\ partial (steady_residual F O P endog stoch params e) ss c l).
    { intros e He; destruct (proj1 (Forall_forall _ _) W e He) as ((We & Wa & Wf) & Wd & Wo & Wt).
      destruct (proj1 (Forall_forall _ _) Sm e He) as (v & T); cbn beta zeta in T; fold (rho_s ss) in T.
      assert (T' : tame F O fns pows fixed (rho_s ss) (rt ss) e v).
      { revert T; apply tame_ext; [intros x u _ H; exact H|intros x q u Hx H; split; [exact (Wt x q Hx)|exact H]]. }
      destruct (tame_ex F O inv FT le OR P fns pows HI fixed (List.length endog) rho_s rt ss Ls) with (e := e) (v := v) as (x & B & Fn & Ev & G & _).
      - intros x u; apply leaf_steady, Ls.
      - intros x q u [Hx Hr]; destruct (leaf_steady ss x u Ls Hr) as [H|[_ (c & Hc & -> & H)]].
        + exfalso; clear - H Hx Hr Dj Nd Ls FT; unfold rho_s, steady_plain in *; rewrite (Dj x Hx) in *.
          apply In_nth_error in Hx as (i & Hi); assert (Li : i < List.length endog) by (apply nth_error_Some; congruence).
          assert (K : forall y, List.length y = List.length endog -> nth_error y i = Some u).
          { intros y Hy; destruct (H y Hy) as [(j & Hj & Hv)|[Hs _]].
            - assert (j = i) by (apply (proj1 (NoDup_nth_error endog) Ne); [apply nth_error_Some; congruence|congruence]); subst j; exact Hv.
            - exfalso; exact (NoDup_app_not _ _ x Nd (nth_error_In _ _ Hi) Hs). }
          pose proof (K (repeat z (List.length endog)) (repeat_length _ _)) as K0; pose proof (K (repeat (r1 O) (List.length endog)) (repeat_length _ _)) as K1.
          rewrite (nth_error_nth' _ z) in K0 by (rewrite repeat_length; exact Li); rewrite (nth_error_nth' _ (r1 O)) in K1 by (rewrite repeat_length; exact Li).
          rewrite nth_repeat in K0, K1; apply (F_1_neq_0 FT); congruence.
        + exists c; split; [exact Hc|]; split; [reflexivity|]; intros y Hy; split; [exact Hx|apply H, Hy].
      - exact T'.
      - assert (HR : forall y, List.length y = List.length endog -> fine x (pt y) -> steady_residual F O P endog stoch params e y (val x (pt y))).
        { intros y Hy Fy; pose proof (G y Hy Fy) as V; revert V; apply value_ext_occ; [intros; reflexivity|].
          intros q k u Hq; split; [intros K; split; [exact (Wt q k Hq)|exact K]|intros [_ K]; exact K]. }
        assert (Hc : computes F (List.length endog) (steady_func F P z e endog params) (steady_residual F O P endog stoch params e)).
        { intros y Hy u; apply (steady_value F P z endog stoch params Nd y Hy e u); assumption. }
        pose proof (Hd e _ He Hc) as Gr.
        assert (Pd : forall j, j < List.length endog -> partial (fun y v => steady_func F P z e endog params y = Ok v) ss j (d1 F O x j (pt ss))).
        { intros j Hj; apply (ex_partial F O inv FT le OR (List.length endog) x B); [|exact Ls|exact Fn|exact Hj].
          intros y Hy Fy; apply (Hc y Hy), HR; assumption. }
        destruct (Gr ss Ls) as (r & Er & Lr & H); [intros j Hj; eexists; apply Pd, Hj|].
        exists r; split; [exact Er|]; split; [exact Lr|]; intros c Lc; exists (d1 F O x c (pt ss)); split; [apply H; auto|].
        apply (ex_partial F O inv FT le OR (List.length endog) x B _ HR); assumption. }
    assert (Rows : exists rows, mapM (fun f => do r <- grad f ss; put_row F z (List.length endog) r) (steady_funcs F P z m) = Ok rows /\
      Forall2 (fun e r => forall c, c < List.length endog -> exists l, nth_error r c = Some l /\ partial (steady_residual F O P endog stoch params e) ss c l) exprs rows).
    { unfold steady_funcs; rewrite E1, E3, E4.
      assert (G : forall es, (forall e, In e es -> In e exprs) -> exists rows, mapM (fun f => do r <- grad f ss; put_row F z (List.length endog) r) (map (fun e => steady_func F P z e endog params) es) = Ok rows /\
        Forall2 (fun e r => forall c, c < List.length endog -> exists l, nth_error r c = Some l /\ partial (steady_residual F O P endog stoch params e) ss c l) es rows).
      { induction es as [|e es IH]; intros Hes; [exists []; split; [reflexivity|constructor]|].
        destruct (Row e (Hes e (or_introl eq_refl))) as (r & Er & Lr & Hr); destruct IH as (rows & Em & Hm); [intros e' He'; apply Hes; right; exact He'|].
        exists (r :: rows); cbn [map mapM]; rewrite Er; cbn [bind]; unfold put_row at 1; rewrite Lr, Nat.eqb_refl; cbn [bind]; rewrite Em; split; [reflexivity|constructor; assumption]. }
      apply G; auto. }
    destruct Rows as (rows & Er & Hr); exists m, (fun i j => nth j (nth i rows []) z); split; [exact E|]; split.
    - unfold steady_jacobian, linearization_array; rewrite Ls, Er; cbn [bind]; unfold stack_rows; rewrite <- (Forall2_len _ _ _ Hr); reflexivity.
    - intros i e c Hi Hc; destruct (Forall2_get _ _ _ _ _ Hr Hi) as (r & Hri & G); destruct (G c Hc) as (l & Hl & Pl).
      rewrite (nth_error_nth _ _ _ Hri), (nth_error_nth _ _ _ Hl); exact Pl.
  Qed.
End Lin.
