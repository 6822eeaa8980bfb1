From Verif Require Import Base Syntax Lexer Parser Eval EvalSpec EvalProofs ModFileSpec Semantics SemanticsSpec SemanticsProofs
  Factory FactorySpec FactoryProofs Indexing IndexingSpec IndexingProofs IndexingProofs2 DynFunc DynSpec DynProofs DynProofs2.

(** ** Offsets out of range *)
Lemma mapM_err {A B} (f : A -> res B) l x er : In x l -> f x = Err er -> exists er', mapM f l = Err er'.
Proof.
  induction l as [|y l IH]; intros Hx E; [contradiction|]; cbn [mapM]; destruct Hx as [->|Hx].
  - rewrite E; cbn [bind]; eauto.
  - destruct (IH Hx E) as (er' & ->); destruct (f y); cbn [bind]; eauto.
Qed.
Lemma eval_strict V O vv pv x k e : functions V (fun f => In f reserved_funcs) e -> occurs_t V x k e -> (exists er, pv x k = Err er) ->
  exists er, eval_with V O vv pv e = Err er.
Proof.
  intros Hf Ho [er Hp]; destruct (eval_with V O vv pv e) as [v|er'] eqn:E; [exfalso|eauto].
  apply eval_value in E; [|exact Hf].
  clear Hf; induction E as [n|y n Hx|y j n Hx|o e n w He IH Hop|o l r n n' w Hl IHl Hr IHr Hop|o l r n n' w Hl IHl Hr IHr Hop|f g e n w Hg He IH Hop];
    inversion Ho; subst; auto; congruence.
Qed.
Lemma named_values_keys V names : forall vals keep acc d, named_values V names vals keep acc = Ok d ->
  forall x, In x (keys d) -> In x names \/ In x (keys acc).
Proof.
  induction names as [|y names IH]; intros vals keep acc d H x Hx; cbn [named_values] in H.
  - injection H as <-; auto.
  - destruct (mem y keep).
    + destruct vals as [|v vals]; [discriminate|]; destruct (IH _ _ _ _ H x Hx) as [G|G]; [left; right; exact G|].
      rewrite keys_update in G; destruct (mem y (keys acc)); [auto|]; apply in_app_iff in G as [G|[<-|[]]]; [auto|left; left; reflexivity].
    + destruct (IH _ _ _ _ H x Hx) as [G|G]; [left; right; exact G|auto].
Qed.
Lemma dynamic_missing V O e dv params dyn x k : is_equation V e -> algebraic V e -> functions V (fun f => In f reserved_funcs) e ->
  occurs_t V x k e -> ~ In (timed_name x k) dv -> exists er, dynamic_func V O e dv params dyn = Err er.
Proof.
  intros He Ha Hf Ho Hn; unfold dynamic_func, dynamic_substitution.
  destruct (subst_total V (fun x => lookup x params) (fun _ _ => None) e Ha) as (e' & E); rewrite E; cbn [bind].
  destruct (named_values V dv dyn (dynamic_not_provided V params e) []) as [d|er] eqn:Hd; cbn [bind]; [|eauto].
  rewrite (eval_subst_top V O _ _ _ _ _ _ (equation_not_leaf V e He) E).
  apply (eval_strict V O _ _ x k e Hf Ho); unfold with_pvar.
  assert (N : lookup (timed_name x k) d = None).
  { apply lookup_None; intros G; destruct (named_values_keys V _ _ _ _ _ Hd _ G) as [H|[]]; contradiction. }
  rewrite N; eauto.
Qed.

(** The rows of any index that could be built. *)
Lemma index_manager_rows lls ns X : NoDup (keys lls) -> index_manager lls ns = Ok X ->
  exists cols, Forall2 (fun p c => mark (snd p) = Ok c) lls cols /\
    (exists d, row_m X = fill (map (existsb (Z.eqb 0)) cols) d) /\
    (exists d, row_0 X = fill (map (existsb (Z.eqb 1)) cols) d) /\
    (exists d, row_p X = fill (map (existsb (Z.eqb 2)) cols) d).
Proof.
  intros Nd H; unfold index_manager in H; rewrite dict_id in H by exact Nd; cbn [app] in H.
  apply bind_ok in H as (cols & Hc & H); apply mapM_ok in Hc.
  assert (L : List.length cols = List.length lls) by (clear - Hc; induction Hc; cbn [List.length]; auto).
  rewrite L, Nat.sub_diag in H; cbn [repeat] in H; rewrite app_nil_r in H; injection H as <-; cbn [row_m row_0 row_p].
  exists cols; split; [exact Hc|]; repeat apply conj; eexists; reflexivity.
Qed.
Lemma suffixed_In s row endog : forall d n, In n (suffixed s (fill row d) endog) ->
  exists i x, nth_error endog i = Some x /\ nth_error row i = Some true /\ n = (x ++ s)%string.
Proof.
  unfold suffixed; revert endog; induction row as [|b row IH]; intros [|x endog] d n H; cbn [fill map select] in H; try contradiction.
  - destruct b; contradiction.
  - destruct b; cbn [map isnan negb select] in H.
    + destruct H as [<-|H]; [exists 0, x; auto|]; destruct (IH endog (S d) n H) as (i & y & H1 & H2 & H3); exists (S i), y; auto.
    + destruct (IH endog d n H) as (i & y & H1 & H2 & H3); exists (S i), y; auto.
Qed.
Lemma mark_member ll c r : mark ll = Ok c -> In r c -> exists k, In k ll /\ (-4 <= k <= 1)%Z /\ r = ((k + 1) mod 3)%Z.
Proof.
  intros H Hr; destruct ll as [|a [|b l]]; cbn [mark] in H; [discriminate| |].
  - destruct ((-3 <=? a + 1) && (a + 1 <=? 2))%Z eqn:E; injection H as <-; [|contradiction].
    destruct Hr as [<-|[]]; exists a; apply andb_true_iff in E as [E1 E2]; apply Z.leb_le in E1, E2; split; [left; reflexivity|split; [lia|reflexivity]].
  - destruct (forallb _ _) eqn:E; [|discriminate]; injection H as <-.
    rewrite forallb_forall in E.
    change (In r (map (fun k => (k + 1) mod 3)%Z (a :: b :: l))) in Hr; apply in_map_iff in Hr as (k & <- & Hk); exists k; split; [exact Hk|].
    specialize (E k Hk); apply andb_true_iff in E as [E1 E2]; apply Z.leb_le in E1, E2; split; [lia|reflexivity].
Qed.
Lemma mark_range ll c k : mark ll = Ok c -> In k ll -> (k < -4 \/ 1 < k)%Z -> ll = [k].
Proof.
  intros H Hk Hr; destruct ll as [|a [|b l]]; cbn [mark] in H; [discriminate| |].
  - destruct Hk as [->|[]]; reflexivity.
  - destruct (forallb _ _) eqn:E; [|discriminate]; rewrite forallb_forall in E; specialize (E k Hk).
    apply andb_true_iff in E as [E1 E2]; apply Z.leb_le in E1, E2; lia.
Qed.

Section Rejected.
  Variable V : Type.
  Variable O : ops V.
  Variable zero : V.
  Variable endog stoch : list string.
  Variable exprs : list (ast V).
  Variable params : list (string * V).
  Hypothesis nodup : NoDup (endog ++ stoch).
  Hypothesis clear_ : no_clash V endog stoch params.
  Hypothesis eqs : Forall (fun e => is_equation V e /\ functions V (fun f => In f reserved_funcs) e) exprs.

  Lemma rejected x k : In x endog -> (exists e, In e exprs /\ at_period V x k e) ->
    (1 < k \/ k < -4 \/ (k < -1 /\ forall e, In e exprs -> ~ at_period V x (-1) e /\ ~ at_period V x (-4) e))%Z ->
    forall m, build V endog stoch exprs params = Ok m -> forall var, exists er, dynamic_call V O zero m var = Err er.
  Proof.
    intros Hx (e & He & Hp) Hk m Hb var; unfold build in Hb.
    apply bind_ok in Hb as (lls & Hl & Hb); apply bind_ok in Hb as (X & HX & Hb); injection Hb as <-.
    destruct (set_spec V endog exprs lls Hl) as (K & Ha & S).
    assert (Ne : NoDup endog).
    { clear - nodup; induction endog as [|y l IH]; [constructor|]; cbn [app] in nodup; apply NoDup_cons_iff in nodup as [H1 H2]; constructor; [|exact (IH H2)].
      intros G; apply H1, in_app_iff; left; exact G. }
    destruct (index_manager_rows lls _ X ltac:(rewrite K; exact Ne) HX) as (cols & Hc & (dm & Rm) & (d0 & R0) & (dp & Rp)).
    assert (Ho : occurs_t V x k e) by (destruct (at_period_cases V x k e Hp) as [G|[G _]]; [exact G|lia]).
    destruct (proj1 (Forall_forall _ _) eqs e He) as [Heq Hf].
    assert (Hn : ~ In (timed_name x k) (dyn_vars X endog stoch)).
    { assert (Kx : In x (names V endog stoch params)) by (apply in_app_iff; auto).
      assert (Row : forall r i, nth_error endog i = Some x -> nth_error (map (existsb (Z.eqb r)) cols) i = Some true ->
        exists k', (exists e, In e exprs /\ at_period V x k' e) /\ (-4 <= k' <= 1)%Z /\ r = ((k' + 1) mod 3)%Z /\ ((k < -4 \/ 1 < k)%Z -> k' = k)).
      { intros r i Hi Hrow; rewrite nth_error_map in Hrow; destruct (nth_error cols i) as [c|] eqn:Ec; [|discriminate]; cbn [option_map] in Hrow; injection Hrow as Hrow.
        apply existsb_exists in Hrow as (r' & Hr' & Er); apply Z.eqb_eq in Er; subst r'.
        destruct (nth_error lls i) as [[y ps]|] eqn:Ep.
        2: { apply nth_error_None in Ep; rewrite <- K in Hi; unfold keys in Hi; assert (i < List.length lls) by (rewrite <- (map_length fst); apply nth_error_Some; congruence); lia. }
        assert (y = x) by (rewrite <- K in Hi; unfold keys in Hi; rewrite nth_error_map, Ep in Hi; cbn in Hi; congruence); subst y.
        assert (Hm : mark ps = Ok c).
        { clear - Hc Ep Ec; revert i Ep Ec; induction Hc as [|p c' l l' H Hl IH]; intros i Ep Ec; [destruct i; discriminate|].
          destruct i as [|i]; cbn [nth_error] in *; [injection Ep as ->; injection Ec as ->; exact H|exact (IH i Ep Ec)]. }
        destruct (mark_member ps c r Hm Hr') as (k' & Hk' & Hr & ->).
        exists k'; split; [apply (S x ps (nth_error_In _ _ Ep) k'); exact Hk'|]; split; [exact Hr|]; split; [reflexivity|].
        intros Hout; assert (Hin : In k ps) by (apply (S x ps (nth_error_In _ _ Ep) k); eauto).
        rewrite (mark_range ps c k Hm Hin ltac:(lia)) in Hk'; destruct Hk' as [<-|[]]; reflexivity. }
      assert (Sx : forall y, In y endog \/ In y stoch -> In y (names V endog stoch params)).
      { intros y [H|H]; apply in_app_iff; [auto|right; apply in_app_iff; auto]. }
      intros G; unfold dyn_vars in G; rewrite Rm, R0, Rp in G.
      apply in_app_iff in G as [G|G]; [|apply in_app_iff in G as [G|G]; [|apply in_app_iff in G as [G|G]]].
      - apply suffixed_In in G as (i & y & Hi & Hrow & E); unfold timed_name in E; destruct (Z.ltb_spec 0 k) as [Kp|Kn].
        + exact (m1_p1 _ _ (eq_sym E)).
        + apply append_inj_r in E; subst y; destruct (Row 0%Z i Hi Hrow) as (k' & Hk' & Hr & Em & Eo).
          destruct Hk as [Hk|[Hk|[Hk1 Hk2]]]; [lia|assert (k' = k) by (apply Eo; lia); lia|].
          assert (C : k' = (-1)%Z \/ k' = (-4)%Z).
          { assert (Hc' : (k' = -4 \/ k' = -3 \/ k' = -2 \/ k' = -1 \/ k' = 0 \/ k' = 1)%Z) by lia.
            destruct Hc' as [-> | [-> | [-> | [-> | [-> | ->]]]]]; cbn in Em; try discriminate Em; auto. }
          destruct Hk' as (e' & He' & Hp'); destruct (Hk2 e' He') as [A B]; destruct C as [-> | ->]; contradiction.
      - apply suffixed_In in G as (i & y & Hi & _ & E); rewrite append_nil_r in E; unfold timed_name in E.
        destruct (clear_ y x (Sx y (or_introl (nth_error_In _ _ Hi))) Kx) as [A B]; destruct (0 <? k)%Z; congruence.
      - apply suffixed_In in G as (i & y & Hi & Hrow & E); unfold timed_name in E; destruct (Z.ltb_spec 0 k) as [Kp|Kn].
        + apply append_inj_r in E; subst y; destruct (Row 2%Z i Hi Hrow) as (k' & Hk' & Hr & Em & Eo).
          assert (k' = k) by (apply Eo; lia); lia.
        + exact (m1_p1 _ _ E).
      - unfold timed_name in G; destruct (clear_ _ x (Sx _ (or_intror G)) Kx) as [A B]; destruct (0 <? k)%Z; congruence. }
    assert (Run : forall v, exists er, mapM (fun e => dynamic_func V O e (dyn_vars X endog stoch) params v) exprs = Err er).
    { intros v; destruct (dynamic_missing V O e (dyn_vars X endog stoch) params v x k Heq (proj1 (Forall_forall _ _) Ha e He) Hf Ho Hn) as (er & E).
      exact (mapM_err _ _ e er He E). }
    unfold dynamic_call; cbn [r_index r_endog r_stoch r_params r_exprs]; destruct (_ =? _); [apply Run|].
    destruct (_ =? _); [apply Run|eauto].
  Qed.
End Rejected.
