From Verif Require Import Base Syntax Lexer Parser Eval EvalSpec EvalProofs ModFileSpec Semantics SemanticsSpec SemanticsProofs
  Factory FactorySpec FactoryProofs Indexing IndexingSpec IndexingProofs IndexingProofs2 DynFunc DynSpec.
From Coq Require Import Permutation Sorted.

(** ** Names *)
Definition suffix (k : Z) : string := if (k <? 0)%Z then "m1" else if (0 <? k)%Z then "p1" else "".
Definition col_name (endog : list string) (p : nat * Z) : string := (nth (fst p) endog "" ++ suffix (snd p))%string.

Lemma append_inj_r s : forall x y, (x ++ s = y ++ s)%string -> x = y.
Proof.
  assert (L : forall x y, String.length (x ++ y) = String.length x + String.length y).
  { induction x as [|c x IH]; intros y; cbn [String.append String.length]; [reflexivity|rewrite IH; reflexivity]. }
  induction x as [|c x IH]; intros [|d y] H; cbn [String.append] in H.
  - reflexivity.
  - exfalso; assert (E := f_equal String.length H); cbn [String.length] in E; rewrite L in E; lia.
  - exfalso; assert (E := f_equal String.length H); cbn [String.length] in E; rewrite L in E; lia.
  - injection H as -> H; f_equal; apply IH; exact H.
Qed.
Lemma append_nil_r x : (x ++ "")%string = x.
Proof. induction x as [|c x IH]; cbn [String.append]; [reflexivity|rewrite IH; reflexivity]. Qed.
Lemma m1_p1 x : forall y, (x ++ "m1")%string <> (y ++ "p1")%string.
Proof.
  induction x as [|c x IH]; intros [|d y] H; cbn [String.append] in H.
  - discriminate.
  - injection H as E H; destruct y as [|d' y]; [discriminate H|]; cbn [String.append] in H; injection H as E2 H; destruct y; discriminate H.
  - injection H as E H; destruct x as [|c' x]; [discriminate H|]; cbn [String.append] in H; injection H as E2 H; destruct x; discriminate H.
  - injection H as -> H; exact (IH y H).
Qed.

Lemma suffixed_names s endog : forall lls k d o, List.length endog = List.length lls ->
  suffixed s (fill (brow lls k) d) endog = map (fun i => (nth (i - o) endog "" ++ s)%string) (where_ (brow lls k) o).
Proof.
  unfold suffixed, brow; induction endog as [|x endog IH]; intros [|ll lls] k d o L; try discriminate L; [reflexivity|].
  injection L as L; cbn [map fill]; destruct (existsb (Z.eqb k) ll).
  - cbn [map isnan negb select where_]; rewrite Nat.sub_diag; cbn [nth]; f_equal; rewrite (IH lls k (S d) (S o) L).
    apply map_ext_in; intros i Hi.
    assert (Wlow : forall row o x, In x (where_ row o) -> o <= x).
    { clear; induction row as [|b row IH]; intros o x H; [contradiction|]; destruct b; cbn [where_ In] in H; [destruct H as [<-|H]; [lia|]|]; apply IH in H; lia. }
    apply Wlow in Hi; replace (i - o) with (S (i - S o)) by lia; reflexivity.
  - cbn [map isnan negb select where_]; rewrite (IH lls k d (S o) L).
    apply map_ext_in; intros i Hi.
    assert (Wlow : forall row o x, In x (where_ row o) -> o <= x).
    { clear; induction row as [|b row IH]; intros o x H; [contradiction|]; destruct b; cbn [where_ In] in H; [destruct H as [<-|H]; [lia|]|]; apply IH in H; lia. }
    apply Wlow in Hi; replace (i - o) with (S (i - S o)) by lia; reflexivity.
Qed.
Lemma dyn_vars_names lls ns endog stoch : List.length endog = List.length lls ->
  dyn_vars (array lls ns) endog stoch = map (col_name endog) (timed_vars lls) ++ stoch.
Proof.
  intros L; unfold dyn_vars, array; cbn [row_m row_0 row_p]; rewrite !(suffixed_names _ endog lls _ _ 0 L).
  unfold timed_vars; cbn [flat_map]; rewrite app_nil_r, !map_app, !map_map, <- !where_brow, <- !app_assoc.
  f_equal; [|f_equal; [|f_equal]]; apply map_ext; intros i; unfold col_name; cbn [fst snd]; rewrite Nat.sub_0_r; reflexivity.
Qed.
Lemma timed_vars_In lls i k : In (i, k) (timed_vars lls) <-> (-1 <= k <= 1)%Z /\ i < List.length lls /\ at_k lls i k = true.
Proof.
  unfold timed_vars; rewrite in_flat_map; split.
  - intros (k' & Hk & H); apply in_map_iff in H as (i' & E & H); injection E as -> ->; apply filter_In in H as [H1 H2]; apply in_seq in H1.
    split; [|split; [lia|exact H2]]; destruct Hk as [<-|[<-|[<-|[]]]]; lia.
  - intros (Hk & Hi & Ha); exists k; split; [cbn [In]; lia|]; apply (in_map (fun i => (i, k))), filter_In; split; [apply in_seq; lia|exact Ha].
Qed.

(** ** The signature *)
Lemma before_irrefl a : ~ before a a.
Proof. unfold before; lia. Qed.
Lemma before_trans a b c : before a b -> before b c -> before a c.
Proof. unfold before; lia. Qed.
Lemma timed_sorted lls : StronglySorted before (timed_vars lls).
Proof.
  assert (S1 : forall (f : nat -> bool) n o k, StronglySorted before (map (fun i => (i, k)) (filter f (seq o n)))).
  { intros f n; induction n as [|n IH]; intros o k; cbn [seq filter]; [constructor|].
    destruct (f o); [|apply IH]; cbn [map]; constructor; [apply IH|]; apply Forall_forall; intros [i k'] H.
    apply in_map_iff in H as (i' & E & H); injection E as -> ->; apply filter_In in H as [H _]; apply in_seq in H; right; cbn [fst snd]; lia. }
  assert (S2 : forall l l' : list (nat * Z), StronglySorted before l -> StronglySorted before l' -> (forall a b, In a l -> In b l' -> before a b) -> StronglySorted before (l ++ l')).
  { induction l as [|a l IH]; intros l' H H' Hb; [exact H'|]; cbn [app]; apply StronglySorted_inv in H as [H1 H2]; constructor.
    - apply IH; [exact H1|exact H'|]; intros b c Hb1 Hc; apply Hb; [right; exact Hb1|exact Hc].
    - apply Forall_app; split; [exact H2|]; apply Forall_forall; intros b Hb1; apply Hb; [left; reflexivity|exact Hb1]. }
  assert (S3 : forall (f g : nat -> bool) n k k' a b, (k < k')%Z -> In a (map (fun i => (i, k)) (filter f (seq 0 n))) -> In b (map (fun i => (i, k')) (filter g (seq 0 n))) -> before a b).
  { intros f g n k k' a b Hk Ha Hb; apply in_map_iff in Ha as (i & <- & _); apply in_map_iff in Hb as (j & <- & _); left; exact Hk. }
  unfold timed_vars; cbn [flat_map]; rewrite app_nil_r; apply S2; [apply S1|apply S2; [apply S1|apply S1|]|].
  - intros a b; apply S3; lia.
  - intros a b Ha Hb; apply in_app_iff in Hb as [Hb|Hb]; eapply S3; try eassumption; lia.
Qed.
Lemma sorted_nth (l : list (nat * Z)) : StronglySorted before l <->
  forall p q a b, p < q -> nth_error l p = Some a -> nth_error l q = Some b -> before a b.
Proof.
  split.
  - intros H; induction H as [|c l Hl IH Hc]; intros p q a b Hpq Ha Hb; [destruct p; discriminate|].
    destruct q as [|q]; [lia|]; cbn [nth_error] in Hb; destruct p as [|p]; cbn [nth_error] in Ha.
    + injection Ha as <-; apply nth_error_In in Hb; exact (proj1 (Forall_forall _ _) Hc b Hb).
    + apply (IH p q a b); [lia|exact Ha|exact Hb].
  - induction l as [|c l IH]; intros H; constructor.
    + apply IH; intros p q a b Hpq Ha Hb; apply (H (S p) (S q)); [lia|exact Ha|exact Hb].
    + apply Forall_forall; intros b Hb; apply In_nth_error in Hb as (q & Hb); apply (H 0 (S q)); [lia|reflexivity|exact Hb].
Qed.
Lemma sorted_ext l : forall l', StronglySorted before l -> StronglySorted before l' -> (forall a, In a l <-> In a l') -> l = l'.
Proof.
  induction l as [|a l IH]; intros [|b l'] H H' E.
  - reflexivity.
  - exfalso; apply (E b); left; reflexivity.
  - exfalso; apply (E a); left; reflexivity.
  - apply StronglySorted_inv in H as [H1 H2]; apply StronglySorted_inv in H' as [H3 H4].
    assert (F1 := proj1 (Forall_forall _ _) H2); assert (F2 := proj1 (Forall_forall _ _) H4).
    assert (Eab : a = b).
    { destruct (proj1 (E a) (or_introl eq_refl)) as [G|G]; [auto|]; destruct (proj2 (E b) (or_introl eq_refl)) as [G'|G']; [auto|].
      exfalso; apply (before_irrefl a), (before_trans a b a); [apply F1; exact G'|apply F2; exact G]. }
    subst b; f_equal; apply IH; [exact H1|exact H3|]; intros c; split; intros Hc.
    + destruct (proj1 (E c) (or_intror Hc)) as [G|G]; [subst c; exfalso; exact (before_irrefl a (F1 a Hc))|exact G].
    + destruct (proj2 (E c) (or_intror Hc)) as [G|G]; [subst c; exfalso; exact (before_irrefl a (F2 a Hc))|exact G].
Qed.

Section Build.
  Variable V : Type.
  Variable endog : list string.
  Variable exprs : list (ast V).

  Lemma lls_at lls : set_lead_lags V endog exprs = Ok lls ->
    forall i k, i < List.length lls -> (at_k (map snd lls) i k = true <-> occurs_at V endog exprs i k).
  Proof.
    intros H i k Hi; destruct (set_spec V endog exprs lls H) as (K & _ & S).
    destruct (nth_error lls i) as [[x ps]|] eqn:E; [|apply nth_error_None in E; lia].
    unfold at_k; assert (En : nth i (map snd lls) [] = ps).
    { apply nth_error_nth; rewrite nth_error_map, E; reflexivity. }
    assert (Ex : nth_error endog i = Some x) by (rewrite <- K; unfold keys; rewrite nth_error_map, E; reflexivity).
    rewrite En; pose proof (S x ps (nth_error_In _ _ E) k) as Q; split.
    - intros G; apply existsb_exists in G as (k' & Hk' & Ek); apply Z.eqb_eq in Ek; subst k'; apply Q in Hk' as (e & He & Ha); exists x, e; auto.
    - intros (y & e & Hy & He & Ha); assert (y = x) by congruence; subst y.
      apply existsb_exists; exists k; split; [apply Q; eauto|apply Z.eqb_refl].
  Qed.
  Lemma lls_length lls : set_lead_lags V endog exprs = Ok lls -> List.length lls = List.length endog.
  Proof. intros H; destruct (set_spec V endog exprs lls H) as (<- & _); unfold keys; rewrite map_length; reflexivity. Qed.
  (** Every variable occurs, with offsets -1, 0, 1 only. *)
  Definition regular : Prop :=
    (forall x, In x endog -> exists k e, In e exprs /\ at_period V x k e) /\
    (forall x k e, In x endog -> In e exprs -> at_period V x k e -> (-1 <= k <= 1)%Z).
  Lemma regular_in_range lls : regular -> set_lead_lags V endog exprs = Ok lls -> in_range (map snd lls).
  Proof.
    intros [R1 R2] H; destruct (set_spec V endog exprs lls H) as (K & _ & S).
    apply Forall_forall; intros ps Hps; apply in_map_iff in Hps as ([x ps'] & E & Hin); cbn [snd] in E; subst ps'.
    assert (Hx : In x endog) by (rewrite <- K; exact (in_map fst _ _ Hin)).
    split.
    - intros ->; destruct (R1 x Hx) as (k & e & He & Ha); assert (In k []) by (apply (S x [] Hin k); eauto); contradiction.
    - apply Forall_forall; intros k Hk; apply (S x ps Hin k) in Hk as (e & He & Ha); exact (R2 x k e Hx He Ha).
  Qed.
  Lemma signature_timed lls : regular -> set_lead_lags V endog exprs = Ok lls ->
    signature V endog exprs (timed_vars (map snd lls)).
  Proof.
    intros R H; split; [|apply sorted_nth, timed_sorted].
    intros i k; rewrite timed_vars_In, map_length; split.
    - intros (_ & Hi & Ha); apply (lls_at lls H i k Hi); exact Ha.
    - intros Ho; assert (Hi : i < List.length lls).
      { destruct Ho as (x & e & Hx & _); rewrite (lls_length lls H); apply nth_error_Some; congruence. }
      split; [|split; [exact Hi|apply (lls_at lls H i k Hi); exact Ho]].
      destruct Ho as (x & e & Hx & He & Ha); destruct R as [_ R]; exact (R x k e (nth_error_In _ _ Hx) He Ha).
  Qed.
  Lemma signature_unique l l' : signature V endog exprs l -> signature V endog exprs l' -> l = l'.
  Proof.
    intros [A B] [A' B']; apply sorted_ext; [apply sorted_nth; exact B|apply sorted_nth; exact B'|].
    intros [i k]; rewrite A, A'; reflexivity.
  Qed.

  (** Building succeeds, and the columns are those of the signature. *)
  Lemma build_ok stoch params : NoDup endog -> regular -> Forall (algebraic V) exprs ->
    exists m, build V endog stoch exprs params = Ok m /\
      r_endog V m = endog /\ r_stoch V m = stoch /\ r_exprs V m = exprs /\ r_params V m = params /\
      exists lls, set_lead_lags V endog exprs = Ok lls /\ r_index V m = array (map snd lls) (List.length stoch).
  Proof.
    intros Nd R Ha; unfold build; destruct (set_total V endog exprs Ha) as (lls & E); rewrite E; cbn [bind].
    destruct (set_spec V endog exprs lls E) as (K & _).
    rewrite (index_manager_array lls (List.length stoch) ltac:(rewrite K; exact Nd) (regular_in_range lls R E)); cbn [bind].
    eexists; split; [reflexivity|]; cbn [r_endog r_stoch r_exprs r_params r_index]; repeat (split; [reflexivity|]); eauto.
  Qed.
End Build.

(** ** Evaluation of the dynamic function *)
Lemma lookup_combine {A} names : forall (vals : list A) x v, NoDup names ->
  (lookup x (combine names vals) = Some v <-> exists j, nth_error names j = Some x /\ nth_error vals j = Some v).
Proof.
  induction names as [|y names IH]; intros vals x v Nd.
  - cbn [combine lookup]; split; [discriminate|intros ([|j] & H & _); discriminate].
  - apply NoDup_cons_iff in Nd as [Hy Nd]; destruct vals as [|w vals]; cbn [combine lookup].
    + split; [discriminate|intros ([|j] & _ & H); discriminate].
    + destruct (String.eqb_spec x y) as [E|N]; [subst y|].
      * split; [intros G; injection G as <-; exists 0; auto|]; intros ([|j] & H1 & H2); cbn [nth_error] in *; [congruence|].
        exfalso; apply Hy; exact (nth_error_In _ _ H1).
      * rewrite (IH vals x v Nd); split; [intros (j & H1 & H2); exists (S j); auto|].
        intros ([|j] & H1 & H2); cbn [nth_error] in *; [congruence|eauto].
Qed.
Section Dyn.
  Variable V : Type.
  Variable O : ops V.

  Lemma equation_not_leaf e : is_equation V e -> is_leaf V e = false.
  Proof. destruct e; cbn [is_equation is_leaf]; intros H; auto; contradiction. Qed.

  (** The values found by name. *)
  Definition by_name (dv : list string) (dyn : list V) (x : string) : res V :=
    match lookup x (combine dv dyn) with Some v => Ok v | None => Err KeyErr end.
  Lemma dynamic_eval e dv params dyn : is_equation V e -> algebraic V e -> NoDup dv -> List.length dv <= List.length dyn ->
    dynamic_func V O e dv params dyn =
    eval_with V O (fun x => match lookup x params with Some v => Ok v | None => by_name dv dyn x end)
      (fun x k => by_name dv dyn (timed_name x k)) e.
  Proof.
    intros He Ha Nd L; unfold dynamic_func, dynamic_substitution.
    destruct (subst_total V (fun x => lookup x params) (fun _ _ => None) e Ha) as (e' & E); rewrite E; cbn [bind].
    destruct (named_values_total V dv dyn (dynamic_not_provided V params e) [] L) as (d & Hd); rewrite Hd; cbn [bind].
    rewrite (eval_subst_top V O _ _ _ _ _ _ (equation_not_leaf e He) E).
    assert (B : forall x, In x (dynamic_not_provided V params e) ->
      match lookup x d with Some v => Ok v | None => Err KeyErr end = by_name dv dyn x).
    { intros x Hx; rewrite (named_values_lookup V _ _ _ _ _ Hd Nd x); apply mem_In in Hx; rewrite Hx; cbn [andb lookup]; unfold by_name.
      destruct (mem x dv) eqn:Em; [destruct (lookup x (combine dv dyn)); reflexivity|].
      destruct (lookup x (combine dv dyn)) as [v|] eqn:El; [|reflexivity].
      apply (lookup_combine dv dyn x v Nd) in El as (j & Hj & _); apply nth_error_In, mem_In in Hj; congruence. }
    apply eval_agree.
    - intros x Ho; unfold with_var; destruct (lookup x params) as [v|] eqn:El; [reflexivity|].
      apply B, (leaf_recorded_var V _ _ e x x); [apply equation_not_leaf; exact He|exact Ha|exact Ho|unfold absent; rewrite El; reflexivity].
    - intros x k Ho; unfold with_pvar; apply B, (leaf_recorded_pvar V _ _ e x k (timed_name x k)); [apply equation_not_leaf; exact He|exact Ha|exact Ho|reflexivity].
  Qed.
  Lemma steady_eval zero e endog params ss : is_equation V e -> algebraic V e -> NoDup endog -> List.length endog <= List.length ss ->
    let get x := match lookup x params with Some v => Ok v | None => Ok (match lookup x (combine endog ss) with Some v => v | None => zero end) end in
    steady_func V O zero e endog params ss = eval_with V O get (fun x _ => get x) e.
  Proof.
    intros He Ha Nd L get; unfold steady_func, steady_substitution.
    destruct (subst_total V (fun x => lookup x params) (fun x _ => lookup x params) e Ha) as (e' & E); rewrite E; cbn [bind].
    destruct (named_values_total V endog ss (steady_not_provided V params e) [] L) as (d & Hd); rewrite Hd; cbn [bind].
    rewrite (eval_subst_top V O _ _ _ _ _ _ (equation_not_leaf e He) E).
    assert (B : forall x, In x (steady_not_provided V params e) ->
      match lookup x d with Some v => v | None => zero end = match lookup x (combine endog ss) with Some v => v | None => zero end).
    { intros x Hx; rewrite (named_values_lookup V _ _ _ _ _ Hd Nd x); apply mem_In in Hx; rewrite Hx; cbn [andb lookup].
      destruct (mem x endog) eqn:Em; [destruct (lookup x (combine endog ss)); reflexivity|].
      destruct (lookup x (combine endog ss)) as [v|] eqn:El; [|reflexivity].
      apply (lookup_combine endog ss x v Nd) in El as (j & Hj & _); apply nth_error_In, mem_In in Hj; congruence. }
    apply eval_agree.
    - intros x Ho; unfold with_var, get; destruct (lookup x params) as [v|] eqn:El; [reflexivity|f_equal].
      apply B, (leaf_recorded_var V _ _ e x x); [apply equation_not_leaf; exact He|exact Ha|exact Ho|unfold absent; rewrite El; reflexivity].
    - intros x k Ho; unfold with_pvar, get; destruct (lookup x params) as [v|] eqn:El; [reflexivity|f_equal].
      apply B, (leaf_recorded_pvar V _ _ e x k x); [apply equation_not_leaf; exact He|exact Ha|exact Ho|unfold absent; rewrite El; reflexivity].
  Qed.
End Dyn.
