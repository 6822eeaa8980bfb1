From Verif Require Import Base Syntax Lexer Parser Eval EvalSpec EvalProofs ModFileSpec Semantics SemanticsSpec SemanticsProofs
  Factory FactorySpec FactoryProofs Indexing IndexingSpec IndexingProofs IndexingProofs2 DynFunc DynSpec DynProofs.
From Coq Require Import Permutation Sorted.

Lemma value_ext_occ V O rho rho' rt rt' e v :
  (forall x w, occurs V x e -> (rho x w <-> rho' x w)) -> (forall x k w, occurs_t V x k e -> (rt x k w <-> rt' x k w)) ->
  (value V O rho rt e v <-> value V O rho' rt' e v).
Proof.
  assert (G : forall (rho rho' : string -> V -> Prop) (rt rt' : string -> Z -> V -> Prop), (forall x w, occurs V x e -> (rho x w -> rho' x w)) -> (forall x k w, occurs_t V x k e -> (rt x k w -> rt' x k w)) ->
    value V O rho rt e v -> value V O rho' rt' e v).
  { clear rho rho' rt rt'; intros rho rho' rt rt' H1 H2 H; revert H1 H2.
    induction H as [n|x n Hx|x k n Hx|o e n w He IH Ho|o l r n n' w Hl IHl Hr IHr Ho|o l r n n' w Hl IHl Hr IHr Ho|f g e n w Hf He IH Ho]; intros H1 H2.
    - constructor.
    - constructor; apply H1; [constructor|exact Hx].
    - constructor; apply H2; [constructor|exact Hx].
    - econstructor; [apply IH; intros|exact Ho]; [eapply H1|eapply H2]; try eassumption; constructor; assumption.
    - econstructor; [apply IHl; intros|apply IHr; intros|exact Ho]; (eapply H1 || eapply H2); try eassumption.
      + apply O_binl; assumption. + apply T_binl; assumption. + apply O_binr; assumption. + apply T_binr; assumption.
    - econstructor; [apply IHl; intros|apply IHr; intros|exact Ho]; (eapply H1 || eapply H2); try eassumption.
      + apply O_compl; assumption. + apply T_compl; assumption. + apply O_compr; assumption. + apply T_compr; assumption.
    - econstructor; [exact Hf|apply IH; intros|exact Ho]; [eapply H1|eapply H2]; try eassumption; constructor; assumption. }
  intros H1 H2; split; apply G; intros; [apply H1|apply H2|apply H1|apply H2]; assumption.
Qed.
Lemma occurs_at_period V x e : occurs V x e -> at_period V x 0 e.
Proof. intros H; induction H; constructor; assumption. Qed.
Lemma occurs_t_at_period V x k e : occurs_t V x k e -> at_period V x k e.
Proof. intros H; induction H; constructor; assumption. Qed.
Lemma at_period_cases V x k e : at_period V x k e -> occurs_t V x k e \/ (k = 0%Z /\ occurs V x e).
Proof.
  intros H; induction H as [|k|k o e H IH|k o l r H IH|k o l r H IH|k o l r H IH|k o l r H IH|k f e H IH].
  - right; split; [reflexivity|constructor].
  - left; constructor.
  - destruct IH as [IH|[E IH]]; [left; constructor; exact IH|right; split; [exact E|constructor; exact IH]].
  - destruct IH as [IH|[E IH]]; [left; apply T_binl; exact IH|right; split; [exact E|apply O_binl; exact IH]].
  - destruct IH as [IH|[E IH]]; [left; apply T_binr; exact IH|right; split; [exact E|apply O_binr; exact IH]].
  - destruct IH as [IH|[E IH]]; [left; apply T_compl; exact IH|right; split; [exact E|apply O_compl; exact IH]].
  - destruct IH as [IH|[E IH]]; [left; apply T_compr; exact IH|right; split; [exact E|apply O_compr; exact IH]].
  - destruct IH as [IH|[E IH]]; [left; constructor; exact IH|right; split; [exact E|constructor; exact IH]].
Qed.

Section Names.
  Variable V : Type.
  Variable endog stoch : list string.
  Variable params : list (string * V).
  Variable lls : list (list Z).
  Hypothesis len : List.length endog = List.length lls.
  Hypothesis nodup : NoDup (endog ++ stoch).
  Hypothesis clear_ : no_clash V endog stoch params.
  Let tv := timed_vars lls.
  Let dv := map (col_name endog) tv ++ stoch.

  Lemma tv_name i k : In (i, k) tv -> exists x, nth_error endog i = Some x /\ col_name endog (i, k) = (x ++ suffix k)%string /\ (-1 <= k <= 1)%Z.
  Proof using V len.
    intros H; apply timed_vars_In in H as (Hk & Hi & _).
    destruct (nth_error endog i) as [x|] eqn:E; [|apply nth_error_None in E; lia].
    exists x; split; [reflexivity|]; split; [unfold col_name; cbn [fst snd]; rewrite (nth_error_nth _ _ _ E); reflexivity|exact Hk].
  Qed.
  Lemma suffix_m1 : suffix (-1) = "m1"%string. Proof. reflexivity. Qed.
  Lemma in_names_e x : In x endog -> In x (names V endog stoch params).
  Proof using. intros H; apply in_app_iff; auto. Qed.
  Lemma in_names_s x : In x stoch -> In x (names V endog stoch params).
  Proof using. intros H; apply in_app_iff; right; apply in_app_iff; auto. Qed.

  (** Names with suffixes determine variable and period. *)
  Lemma suffix_inj x y k k' : In x (names V endog stoch params) -> In y (names V endog stoch params) -> (-1 <= k <= 1)%Z -> (-1 <= k' <= 1)%Z ->
    (x ++ suffix k)%string = (y ++ suffix k')%string -> x = y /\ k = k'.
  Proof using clear_.
    clear len nodup dv tv lls; intros Hx Hy Hk Hk' E.
    assert (C : k = (-1)%Z \/ k = 0%Z \/ k = 1%Z) by lia; assert (C' : k' = (-1)%Z \/ k' = 0%Z \/ k' = 1%Z) by lia.
    destruct (clear_ x y Hx Hy) as [A1 A2]; destruct (clear_ y x Hy Hx) as [B1 B2].
    destruct C as [-> | [-> | ->]], C' as [-> | [-> | ->]]; cbn [suffix Z.ltb Z.compare] in E; rewrite ?append_nil_r in E;
      try (split; [exact (append_inj_r _ _ _ E) || exact E|reflexivity]); exfalso; try congruence;
      first [exact (m1_p1 _ _ E) | exact (m1_p1 _ _ (eq_sym E))].
  Qed.
  Lemma dv_NoDup : NoDup dv.
  Proof using len nodup clear_.
    unfold dv; assert (Ne : NoDup endog).
    { clear - nodup; induction endog as [|x l IH]; [constructor|]; cbn [app] in nodup; apply NoDup_cons_iff in nodup as [H1 H2]; constructor; [|exact (IH H2)].
      intros G; apply H1, in_app_iff; left; exact G. }
    assert (Ns : NoDup stoch) by exact (NoDup_app_r _ _ nodup).
    assert (Nt : NoDup (map (col_name endog) tv)).
    { assert (Sd : NoDup tv).
      { unfold tv; pose proof (timed_sorted lls) as S; induction S as [|a l Hl IH Ha]; constructor; [|exact IH].
        intros G; exact (before_irrefl a (proj1 (Forall_forall _ _) Ha a G)). }
      assert (Inj : forall a b, In a tv -> In b tv -> col_name endog a = col_name endog b -> a = b).
      { intros [i k] [j k'] Ha Hb E; destruct (tv_name i k Ha) as (x & Hx & Ex & Kx); destruct (tv_name j k' Hb) as (y & Hy & Ey & Ky).
        rewrite Ex, Ey in E; apply suffix_inj in E as [-> ->]; auto; try (apply in_names_e; eapply nth_error_In; eassumption).
        f_equal; apply (proj1 (NoDup_nth_error endog) Ne); [apply nth_error_Some; congruence|congruence]. }
      clear - Sd Inj; induction Sd as [|a l Ha Hl IH]; cbn [map]; constructor.
      - intros G; apply in_map_iff in G as (b & E & Hb); apply Inj in E; [subst b; contradiction|right; exact Hb|left; reflexivity].
      - apply IH; intros b c Hb Hc; apply Inj; right; assumption. }
    assert (D : forall n, In n (map (col_name endog) tv) -> In n stoch -> False).
    { intros n Hn Hs; apply in_map_iff in Hn as ([i k] & E & Hi); destruct (tv_name i k Hi) as (x & Hx & Ex & Kx).
      assert (F : (n ++ suffix 0)%string = (x ++ suffix k)%string) by (cbn [suffix Z.ltb Z.compare]; rewrite append_nil_r; congruence).
      apply suffix_inj in F as [-> <-]; [|apply in_names_s; exact Hs|apply in_names_e; exact (nth_error_In _ _ Hx)|lia|exact Kx].
      exact (NoDup_app_not _ _ x nodup (nth_error_In _ _ Hx) Hs). }
    clear - Nt Ns D; induction Nt as [|a l Ha Hl IH]; [exact Ns|]; cbn [app]; constructor.
    - rewrite in_app_iff; intros [G|G]; [contradiction|exact (D a (or_introl eq_refl) G)].
    - apply IH; intros n Hn; apply D; right; exact Hn.
  Qed.

  Variable a u : list V.
  Hypothesis la : List.length a = List.length tv.
  Lemma dv_value n v : by_name V dv (a ++ u) n = Ok v <->
    (exists i k j, nth_error tv j = Some (i, k) /\ col_name endog (i, k) = n /\ nth_error a j = Some v) \/
    (exists s, nth_error stoch s = Some n /\ nth_error u s = Some v).
  Proof using len nodup clear_ la.
    unfold by_name; transitivity (lookup n (combine dv (a ++ u)) = Some v).
    { destruct (lookup n (combine dv (a ++ u))); split; congruence. }
    rewrite (lookup_combine dv (a ++ u) n v dv_NoDup); unfold dv; split.
    - intros (j & Hn & Hv); destruct (Nat.lt_ge_cases j (List.length tv)) as [Hj|Hj].
      + rewrite nth_error_app1 in Hn by (rewrite map_length; exact Hj); rewrite nth_error_app1 in Hv by (rewrite la; exact Hj).
        rewrite nth_error_map in Hn; destruct (nth_error tv j) as [[i k]|] eqn:E; [|discriminate]; injection Hn as <-; left; eauto 6.
      + rewrite nth_error_app2 in Hn by (rewrite map_length; exact Hj); rewrite nth_error_app2 in Hv by (rewrite la; exact Hj).
        rewrite map_length in Hn; rewrite la in Hv; right; eauto.
    - intros [(i & k & j & Hj & <- & Hv)|(s & Hs & Hv)].
      + exists j; rewrite nth_error_app1 by (rewrite map_length; apply nth_error_Some; congruence); rewrite nth_error_map, Hj.
        split; [reflexivity|]; rewrite nth_error_app1 by (apply nth_error_Some; congruence); exact Hv.
      + exists (List.length tv + s); rewrite !nth_error_app2 by (rewrite ?map_length; lia); rewrite map_length, la.
        replace (List.length tv + s - List.length tv) with s by lia; auto.
  Qed.
  Lemma dv_plain x v : In x (names V endog stoch params) ->
    (match lookup x params with Some w => Ok w | None => by_name V dv (a ++ u) x end = Ok v <-> plain V endog stoch params tv a u x v).
  Proof using len nodup clear_ la.
    intros Hx; unfold plain; destruct (lookup x params) as [w|]; [split; congruence|]; rewrite dv_value; split.
    - intros [(i & k & j & Hj & E & Hv)|H]; [left|right; exact H].
      destruct (tv_name i k (nth_error_In _ _ Hj)) as (y & Hy & Ey & Ky).
      assert (F : (x ++ suffix 0)%string = (y ++ suffix k)%string) by (cbn [suffix Z.ltb Z.compare]; rewrite append_nil_r; congruence).
      apply suffix_inj in F as [-> <-]; [eauto|exact Hx|apply in_names_e; exact (nth_error_In _ _ Hy)|lia|exact Ky].
    - intros [(i & j & Hi & Hj & Hv)|H]; [left|right; exact H]; exists i, 0%Z, j; split; [exact Hj|]; split; [|exact Hv].
      unfold col_name; cbn [fst snd]; rewrite (nth_error_nth _ _ _ Hi); apply append_nil_r.
  Qed.
  Lemma dv_timed x k v : In x (names V endog stoch params) -> k = (-1)%Z \/ k = 1%Z ->
    (by_name V dv (a ++ u) (timed_name x k) = Ok v <-> at_time V endog tv a x k v).
  Proof using len nodup clear_ la.
    intros Hx Hk; assert (T : timed_name x k = (x ++ suffix k)%string) by (destruct Hk as [-> | ->]; reflexivity).
    assert (Kr : (-1 <= k <= 1)%Z) by lia.
    rewrite T, dv_value; unfold at_time; split.
    - intros [(i & k' & j & Hj & E & Hv)|(s & Hs & _)].
      + destruct (tv_name i k' (nth_error_In _ _ Hj)) as (y & Hy & Ey & Ky); rewrite Ey in E.
        apply suffix_inj in E as [-> ->]; [eauto|apply in_names_e; exact (nth_error_In _ _ Hy)|exact Hx|exact Ky|exact Kr].
      + exfalso; destruct (clear_ (x ++ suffix k)%string x (in_names_s _ (nth_error_In _ _ Hs)) Hx) as [A B]; destruct Hk as [-> | ->]; cbn in A, B; congruence.
    - intros (i & j & Hi & Hj & Hv); left; exists i, k, j; split; [exact Hj|]; split; [|exact Hv].
      unfold col_name; cbn [fst snd]; rewrite (nth_error_nth _ _ _ Hi); reflexivity.
  Qed.

  Variable O : ops V.
  Hypothesis lu : List.length u = List.length stoch.
  Lemma dynamic_value e v : is_equation V e -> algebraic V e -> functions V (fun f => In f reserved_funcs) e ->
    declared V endog stoch params e -> offsets V e ->
    (dynamic_func V O e dv params (a ++ u) = Ok v <-> value V O (plain V endog stoch params tv a u) (at_time V endog tv a) e v).
  Proof using len nodup clear_ la lu.
    intros He Ha Hf [D1 D2] Ho.
    rewrite (dynamic_eval V O e dv params (a ++ u) He Ha dv_NoDup ltac:(unfold dv; rewrite !app_length, map_length; lia)).
    rewrite (eval_value V O _ _ e v Hf); apply value_ext_occ.
    - intros x w Hx; apply dv_plain, D1; exact Hx.
    - intros x k w Hx; apply dv_timed; [eapply D2; exact Hx|exact (Ho x k Hx)].
  Qed.
End Names.

Lemma mapM_res_ext {A B} (f g : A -> res B) l : (forall x, In x l -> f x = g x) -> mapM f l = mapM g l.
Proof. induction l as [|x l IH]; intros H; [reflexivity|]; cbn [mapM]; rewrite (H x (or_introl eq_refl)), IH; [reflexivity|intros y Hy; apply H; right; exact Hy]. Qed.

(** ** At the steady state *)
Section Steady.
  Variable V : Type.
  Variable O : ops V.
  Variable zero : V.
  Variable endog stoch : list string.
  Variable params : list (string * V).
  Variable lls : list (list Z).
  Hypothesis len : List.length endog = List.length lls.
  Hypothesis nodup : NoDup (endog ++ stoch).
  Hypothesis clear_ : no_clash V endog stoch params.
  Hypothesis disj : forall x, In x endog -> lookup x params = None.
  Variable ss : list V.
  Hypothesis ls : List.length ss = List.length endog.

  Definition stacked_endog : list V := map (fun p => nth (fst p) ss zero) (timed_vars lls).
  Lemma select_brow (l : list V) k d : List.length l = List.length lls ->
    select (map (fun o => negb (isnan o)) (fill (brow lls k) d)) l = map (fun i => nth i l zero) (filter (fun i => at_k lls i k) (seq 0 (List.length lls))).
  Proof using.
    clear ls len; intros L; assert (M : map (fun o => negb (isnan o)) (fill (brow lls k) d) = brow lls k).
    { generalize (brow lls k) as row; intros row; revert d; induction row as [|[|] row IH]; intros d; cbn [fill map isnan negb]; [reflexivity| |]; f_equal; apply IH. }
    rewrite M, (fun m r H => select_filter zero m r H 0) by (unfold brow; rewrite map_length; lia).
    rewrite L; transitivity (map (fun i => nth i l zero) (filter (fun i => nth (i - 0) (brow lls k) false) (seq 0 (List.length lls)))).
    { apply map_ext; intros i; rewrite Nat.sub_0_r; reflexivity. }
    f_equal; apply filter_ext_in; intros i Hi; apply in_seq in Hi; rewrite Nat.sub_0_r; unfold brow, at_k.
    rewrite (nth_indep _ false (existsb (Z.eqb k) [])) by (rewrite map_length; lia); rewrite map_nth; reflexivity.
  Qed.
  Lemma stacked_array n : stacked (array lls n) ss zero (List.length stoch) = stacked_endog ++ repeat zero (List.length stoch).
  Proof using len ls.
    unfold stacked, array; cbn [row_m row_0 row_p]; rewrite !select_brow by lia.
    unfold stacked_endog, timed_vars; cbn [flat_map]; rewrite app_nil_r, !map_app, !map_map; cbn [fst]; rewrite <- !app_assoc; reflexivity.
  Qed.
  Lemma dynamic_steady e : is_equation V e -> algebraic V e -> declared V endog stoch params e -> offsets V e ->
    (forall x k, occurs_t V x k e -> In x endog) ->
    (forall x i k, at_period V x k e -> nth_error endog i = Some x -> In (i, k) (timed_vars lls)) ->
    dynamic_func V O e (map (col_name endog) (timed_vars lls) ++ stoch) params (stacked_endog ++ repeat zero (List.length stoch)) =
    steady_func V O zero e endog params ss.
  Proof using len nodup clear_ disj ls.
    intros He Ha [D1 D2] Ho Ht Hp.
    assert (La : List.length stacked_endog = List.length (timed_vars lls)) by (unfold stacked_endog; apply map_length).
    assert (Ne : NoDup endog).
    { clear - nodup; induction endog as [|x l IH]; [constructor|]; cbn [app] in nodup; apply NoDup_cons_iff in nodup as [H1 H2]; constructor; [|exact (IH H2)].
      intros G; apply H1, in_app_iff; left; exact G. }
    rewrite (dynamic_eval V O e _ params _ He Ha (dv_NoDup V endog stoch params lls len nodup clear_)) by (rewrite !app_length, map_length, repeat_length; lia).
    rewrite (steady_eval V O zero e endog params ss He Ha Ne ltac:(lia)).
    assert (E : forall x i k, nth_error endog i = Some x -> In (i, k) (timed_vars lls) ->
      exists v, lookup x (combine endog ss) = Some v /\ by_name V (map (col_name endog) (timed_vars lls) ++ stoch) (stacked_endog ++ repeat zero (List.length stoch)) (x ++ suffix k)%string = Ok v).
    { intros x i k Hi Hin; assert (Hl : i < List.length ss) by (rewrite ls; apply nth_error_Some; congruence).
      exists (nth i ss zero); split.
      - apply (lookup_combine endog ss x _ Ne); exists i; split; [exact Hi|apply nth_error_nth'; exact Hl].
      - apply (dv_value V endog stoch params lls len nodup clear_ _ _ La); left.
        apply In_nth_error in Hin as (j & Hj); exists i, k, j; split; [exact Hj|]; split.
        + unfold col_name; cbn [fst snd]; rewrite (nth_error_nth _ _ _ Hi); reflexivity.
        + unfold stacked_endog; rewrite nth_error_map, Hj; reflexivity. }
    apply eval_agree.
    - intros x Hx; destruct (lookup x params) as [v|] eqn:El; [reflexivity|].
      pose proof (D1 x Hx) as Hn; apply in_app_iff in Hn as [Hn|Hn].
      + apply In_nth_error in Hn as (i & Hi); destruct (E x i 0%Z Hi) as (v & E1 & E2).
        { apply (Hp x i 0%Z); [apply occurs_at_period; exact Hx|exact Hi]. }
        cbn [suffix Z.ltb Z.compare] in E2; rewrite append_nil_r in E2; rewrite E1, E2; reflexivity.
      + apply in_app_iff in Hn as [Hn|Hn].
        * assert (N : lookup x (combine endog ss) = None).
          { destruct (lookup x (combine endog ss)) as [v|] eqn:Ec; [|reflexivity]; exfalso.
            apply (lookup_combine endog ss x v Ne) in Ec as (j & Hj & _); exact (NoDup_app_not _ _ x nodup (nth_error_In _ _ Hj) Hn). }
          rewrite N; apply (dv_value V endog stoch params lls len nodup clear_ _ _ La); right.
          apply In_nth_error in Hn as (s & Hs); exists s; split; [exact Hs|].
          assert (Hl : s < List.length stoch) by (apply nth_error_Some; congruence).
          rewrite (nth_error_nth' _ zero) by (rewrite repeat_length; exact Hl); rewrite nth_repeat; reflexivity.
        * exfalso; apply lookup_None in El; contradiction.
    - intros x k Hx; pose proof (Ht x k Hx) as Hn; rewrite (disj x Hn).
      apply In_nth_error in Hn as (i & Hi); destruct (E x i k Hi) as (v & E1 & E2).
      { apply (Hp x i k); [apply occurs_t_at_period; exact Hx|exact Hi]. }
      assert (T : timed_name x k = (x ++ suffix k)%string) by (destruct (Ho x k Hx) as [-> | ->]; reflexivity).
      rewrite T, E1, E2; reflexivity.
  Qed.
  (** What the steady equations compute. *)
  Lemma steady_value e v : is_equation V e -> algebraic V e -> functions V (fun f => In f reserved_funcs) e -> declared V endog stoch params e ->
    (steady_func V O zero e endog params ss = Ok v <->
     value V O (steady_plain V endog stoch params zero ss) (fun x _ => steady_plain V endog stoch params zero ss x) e v).
  Proof using nodup ls.
    clear len; intros He Ha Hf [D1 D2].
    assert (Ne : NoDup endog).
    { clear - nodup; induction endog as [|x l IH]; [constructor|]; cbn [app] in nodup; apply NoDup_cons_iff in nodup as [H1 H2]; constructor; [|exact (IH H2)].
      intros G; apply H1, in_app_iff; left; exact G. }
    rewrite (steady_eval V O zero e endog params ss He Ha Ne ltac:(lia)), (eval_value V O _ _ e v Hf).
    assert (G : forall x w, In x (names V endog stoch params) ->
      (match lookup x params with Some v => Ok v | None => Ok (match lookup x (combine endog ss) with Some v => v | None => zero end) end = Ok w <-> steady_plain V endog stoch params zero ss x w)).
    { intros x w Hn; unfold steady_plain; destruct (lookup x params) as [p|] eqn:El; [split; congruence|].
      destruct (lookup x (combine endog ss)) as [q|] eqn:Ec.
      - apply (lookup_combine endog ss x q Ne) in Ec as (i & Hi & Hq); split.
        + intros G; injection G as <-; left; eauto.
        + intros [(i' & Hi' & Hw)|[Hs _]].
          * assert (i' = i) by (apply (proj1 (NoDup_nth_error endog) Ne); [apply nth_error_Some; congruence|congruence]); congruence.
          * exfalso; exact (NoDup_app_not _ _ x nodup (nth_error_In _ _ Hi) Hs).
      - split.
        + intros G; injection G as <-; right; split; [|reflexivity].
          apply in_app_iff in Hn as [Hn|Hn].
          * apply In_nth_error in Hn as (i & Hi); assert (Hl : i < List.length ss) by (rewrite ls; apply nth_error_Some; congruence).
            assert (Q : lookup x (combine endog ss) = Some (nth i ss zero)) by (apply (lookup_combine endog ss x _ Ne); exists i; split; [exact Hi|apply nth_error_nth'; exact Hl]); congruence.
          * apply in_app_iff in Hn as [Hn|Hn]; [exact Hn|apply lookup_None in El; contradiction].
        + intros [(i & Hi & Hw)|[_ ->]]; [|reflexivity].
          assert (Q : lookup x (combine endog ss) = Some w) by (apply (lookup_combine endog ss x _ Ne); eauto); congruence. }
    apply value_ext_occ.
    - intros x w Hx; apply G, D1, Hx.
    - intros x k w Hx; apply G; eapply D2; exact Hx.
  Qed.
End Steady.
