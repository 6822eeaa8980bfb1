(** Property C89: the variables of a kind, the values at the boundaries, and looking
    variables and columns up. *)
From Verif Require Import Base Syntax Lexer Parser Eval EvalSpec Semantics Factory FactorySpec Calib Indexing DynFunc Vars ExprList
  IndexingSpec IndexingProofs ModelState ModelStateSpec ModelStateProofs ModelStateProofs2 ModelStateProofs3 PropParser PropFile PropModel Views ViewsSpec.

Lemma Forall2_len {A B} (R : A -> B -> Prop) l r : Forall2 R l r -> List.length l = List.length r.
Proof. induction 1; cbn [List.length]; congruence. Qed.

Lemma at_lookup (L : list (list Z)) i k ps : nth_error L i = Some ps -> (at_k L i k = true <-> In k ps).
Proof.
  intros E; unfold at_k; rewrite (nth_error_nth _ _ _ E); rewrite existsb_exists; split.
  - intros (j & Hj & Ej); apply Z.eqb_eq in Ej; subst; exact Hj.
  - intros H; exists k; split; [exact H|apply Z.eqb_refl].
Qed.

Lemma index_occurs lls n x : index_manager lls n = Ok x -> NoDup (keys lls) -> Forall (fun p => snd p <> []) lls.
Proof.
  unfold index_manager; intros H N; rewrite dict_id in H by exact N; cbn [app] in H.
  apply bind_ok in H as (cols & H & _); clear N; revert cols H; induction lls as [|[y ps] lls IH]; intros cols H; [constructor|].
  cbn [mapM snd] in H; apply bind_ok in H as (c & Hc & H); apply bind_ok in H as (cs & Hcs & _); constructor; [|eapply IH; eassumption].
  cbn [snd]; intros ->; discriminate.
Qed.

Lemma mask_length cls lls n x : index_manager lls n = Ok x -> List.length (mask cls x) <= List.length lls.
Proof.
  unfold index_manager; intros H; apply bind_ok in H as (cols & Hc & H); injection H as <-; unfold mask; cbn [row_m row_0 row_p].
  assert (M : forall a b c, List.length (mask3 cls a b c) <= List.length a).
  { induction a as [|u a IH]; intros [|v b] [|w c]; cbn [mask3 List.length]; try lia; specialize (IH b c); lia. }
  etransitivity; [apply M|].
  assert (F : forall r k, List.length (fill r k) = List.length r).
  { induction r as [|[] r IH]; intros k; cbn [fill List.length]; auto. }
  rewrite F, map_length, app_length, repeat_length.
  assert (List.length cols <= List.length lls); [|lia].
  apply mapM_ok, Forall2_len in Hc; rewrite <- Hc; clear.
  enough (G : forall acc, List.length (fold_left (fun d (p : string * list Z) => Base.update (fst p) (snd p) d) lls acc) <= List.length lls + List.length acc).
  { specialize (G []); cbn [List.length] in G; lia. }
  induction lls as [|p lls IH]; intros acc; cbn [fold_left List.length]; [lia|].
  specialize (IH (Base.update (fst p) (snd p) acc)).
  assert (List.length (Base.update (fst p) (snd p) acc) <= S (List.length acc)); [|lia].
  clear; induction acc as [|[y v] acc IH]; cbn [Base.update List.length]; [lia|]; destruct (String.eqb (fst p) y); cbn [List.length]; lia.
Qed.

Lemma choose_kept {A B} (P : A -> Prop) (f : nat -> bool) : forall (l : list A) (l2 pre : list B),
  List.length l = List.length l2 ->
  (forall i a, nth_error l i = Some a -> (f (List.length pre + i) = true <-> P a)) ->
  exists ps vs, choose (pre ++ l2) (filter f (seq (List.length pre) (List.length l))) = Ok vs /\
    kept P l ps /\ (forall R : A -> B -> Prop, Forall2 R l l2 -> Forall2 R ps vs).
Proof.
  induction l as [|a l IH]; intros [|b l2] pre L H; try discriminate L.
  - exists [], []; split; [reflexivity|]; split; constructor.
  - cbn [List.length seq filter].
    destruct (IH l2 (pre ++ [b])) as (ps & vs & E & K & F).
    { injection L as L; exact L. }
    { intros i a' Hi; specialize (H (S i) a' Hi); rewrite app_length; cbn [List.length].
      replace (List.length pre + 1 + i) with (List.length pre + S i) by lia; exact H. }
    rewrite app_length in E; cbn [List.length] in E; replace (List.length pre + 1) with (S (List.length pre)) in E by lia.
    rewrite <- app_assoc in E; cbn [app] in E.
    specialize (H 0 a eq_refl); rewrite Nat.add_0_r in H.
    destruct (f (List.length pre)).
    + exists (a :: ps), (b :: vs); split.
      * unfold choose in *; cbn [mapM]; rewrite nth_error_app2, Nat.sub_diag by lia; cbn [nth_error bind]; rewrite E; reflexivity.
      * split; [constructor; [apply H; reflexivity|exact K]|].
        intros R HR; inversion HR; subst; constructor; auto.
    + exists ps, vs; split; [exact E|]; split; [constructor; [intros X; apply H in X; discriminate|exact K]|].
      intros R HR; inversion HR; subst; auto.
Qed.

Section Properties.
  Variable V : Type.
  Variable O : ops V.
  Variable zero one : V.
  Variable truthy isnum : V -> bool.
  Variable float_of : text -> option V.
  Variable trunc : V -> option Z.
  Variable parse_text : text -> res (ast V).
  Variable keeps : bool.
  Variable space_t sol_t : Type.
  Variable space : list (option V) -> steady_repr V -> repr V -> res space_t.
  Variable solver : option (sol_t * matrix V) -> list (option V) -> steady_repr V -> repr V -> space_t -> res sol_t.

  Notation new_model := (ModelState.new_model V O zero one truthy float_of trunc parse_text space_t sol_t space).
  Notation step := (ModelState.step V O zero one truthy isnum float_of trunc parse_text keeps space_t sol_t space solver).
  Notation run := (ModelState.run V O zero one truthy isnum float_of trunc parse_text keeps space_t sol_t space solver).
  Notation effects := (ModelStateSpec.effects V one).
  Notation describes := (ModelStateSpec.describes V one).
  Notation definition := (ModelState.definition V space_t sol_t).
  Notation kind_vars := (Views.kind_vars V O zero isnum space_t sol_t space).

  (** A variable of the model is one that was declared, with its values. *)
  Definition declared (p : string * bounds V) (v : evar V) : Prop :=
    ev_name v = fst p /\ ev_term v = snd (fst (snd p)) /\ ev_hist v = snd (snd p) /\
    ev_init v = starts V zero (fst (fst (snd p))) (snd (fst (snd p))) (snd (snd p)).

  Lemma tracks_declared (Ht : forall v, truthy v = false -> v = zero) d m :
    tracks V O zero truthy float_of trunc parse_text d m -> Forall2 declared (m_endog V d) (d_endog V m).
  Proof.
    intros (T & _); revert T; generalize (d_endog V m); induction (m_endog V d) as [|[x [[i t] h]] l IH]; intros l2 T; inversion T; subst; constructor; auto.
    rewrite H1; unfold declared, Vars.new_evar, starts; cbn [fst snd ev_name ev_term ev_hist ev_init].
    repeat apply conj; try reflexivity.
    destruct i as [i|], t, h; try reflexivity; destruct (truthy i) eqn:E; [reflexivity|rewrite (Ht _ E); reflexivity].
  Qed.

  (** C89, the variables of a kind.  A model is built and then added to, read, solved and
      simulated in any way, as in C30; no variable is more than one period away.  Then the
      variables of a kind are those declared variables that are of this kind in the current
      equations, in the order of their declarations and with their values. *)
  Theorem C89_kinds_partial :
    (forall v, truthy v = false -> v = zero) ->
    forall d a m0 os m l k m' vs es,
      describes d a -> new_model a = Ok m0 -> run os m0 = (m, l) ->
      additions_made V space_t sol_t l -> repaired V space_t sol_t l ->
      distinct V (effects os d) ->
      mapM (parse_given V parse_text) (m_exprs V (effects os d)) = Ok es ->
      near V (map fst (m_endog V (effects os d))) es ->
      kind_vars k m = (m', Ok vs) ->
      exists ps, kept (fun p => is_kind V k es (fst p)) (m_endog V (effects os d)) ps /\ Forall2 declared ps vs.
  Proof.
    intros Ht d a m0 os m l k m' vs es D H R A P N Hes Hn S.
    destruct (start V O zero one truthy isnum float_of trunc parse_text space_t sol_t space d a m0 D (distinct_effects V one os d N) H) as (K & C & _ & _).
    pose proof (run_known V O zero one truthy isnum float_of trunc parse_text keeps space_t sol_t space solver os d m0 m l K R A) as K'.
    pose proof (run_current V O zero one truthy isnum float_of trunc parse_text keeps space_t sol_t space solver os m0 m l R A (or_introl C) P) as C'.
    unfold Views.kind_vars in S.
    destruct (read V O zero isnum space_t sol_t space RIndexes m) as [m1 [w|e]] eqn:E; [|discriminate].
    destruct w as [x| | | |]; try discriminate; injection S as <- S.
    destruct (read_ok V O zero truthy isnum float_of trunc parse_text space_t sol_t space RIndexes m m1 _ E) as (K1 & _).
    specialize (K1 _ K').
    set (D' := effects os d) in *.
    pose proof (tracks_names V O zero truthy float_of trunc parse_text _ _ K1) as HN.
    destruct (read_current V O zero truthy isnum float_of trunc parse_text space_t sol_t space RIndexes m m1 _ C' E) as (x' & st & dy & sp & F & G).
    cbn [reading_of] in G; injection G as <-.
    destruct F as (lls & F1 & F2 & _).
    pose proof K1 as (T1 & _ & _ & _ & _ & T6).
    assert (trees (d_exprs V (definition m1)) = es) as Et by congruence.
    rewrite HN, Et in F1; clear C C' E T6 Et.
    destruct N as (N & _).
    destruct (set_spec V _ _ _ F1) as (LK & _ & LS).
    assert (NK : NoDup (keys lls)) by (rewrite LK; exact N).
    pose proof (index_occurs _ _ _ F2 NK) as OC.
    assert (IR : in_range (map snd lls)).
    { apply Forall_forall; intros ps Hps; apply in_map_iff in Hps as ([y ps'] & Ey & Hin); cbn [snd] in Ey; subst ps'.
      rewrite Forall_forall in OC; split; [exact (OC _ Hin)|].
      apply Forall_forall; intros j Hj; apply (LS y ps Hin) in Hj as (e & He & Ha).
      eapply Hn; [|exact He|exact Ha]; rewrite <- LK; exact (in_map fst _ _ Hin). }
    rewrite (index_manager_array lls _ NK IR) in F2; injection F2 as <-.
    assert (LL : List.length (map snd lls) = List.length (m_endog V D')).
    { rewrite map_length, <- (map_length fst), <- (map_length fst (m_endog V D')); f_equal; exact LK. }
    set (q := fun lag now lead : bool => match k with
       | KState | KBackward => lag | KForward => lead | KPureForward => negb lag && lead
       | KPureBackward => lag && negb lead | KMixed => lag && lead | KStatic => negb lag && negb lead end).
    assert (Q : forall u v w, class_of k u v w = q (negb (isnan u)) (negb (isnan v)) (negb (isnan w))).
    { intros u v w; unfold q; destruct k, u, v, w; reflexivity. }
    rewrite (members_array _ q _ _ Q), LL in S.
    destruct (choose_kept (fun p : string * bounds V => is_kind V k es (fst p))
      (fun i => q (at_k (map snd lls) i (-1)) (at_k (map snd lls) i 0) (at_k (map snd lls) i 1)) (m_endog V D') (d_endog V (definition m1)) [])
      as (ps & vs' & E1 & E2 & E3).
    { apply Forall2_len in T1; exact T1. }
    { intros i p Hi; cbn [List.length Nat.add].
      assert (exists ps, nth_error lls i = Some (fst p, ps)) as (ps & Hp).
      { assert (nth_error (keys lls) i = Some (fst p)) as X by (rewrite LK, nth_error_map, Hi; reflexivity).
        unfold keys in X; rewrite nth_error_map in X; destruct (nth_error lls i) as [[y ps]|]; [|discriminate].
        cbn in X; injection X as ->; eauto. }
      assert (X : forall j, at_k (map snd lls) i j = true <-> exists e, In e es /\ at_period V (fst p) j e).
      { intros j; rewrite <- (LS _ _ (nth_error_In _ _ Hp) j); apply at_lookup; rewrite nth_error_map, Hp; reflexivity. }
      pose proof (X (-1)%Z) as X1; pose proof (X 1%Z) as X2; unfold q, is_kind, lagged, led.
      destruct (at_k (map snd lls) i (-1)), (at_k (map snd lls) i 1); destruct X1 as [Xa Xb], X2 as [Xc Xd];
        try specialize (Xa eq_refl); try specialize (Xc eq_refl);
        destruct k; cbn [negb andb]; split; intros Y; try discriminate; try reflexivity; try assumption;
        repeat match goal with | |- _ /\ _ => split | Y : _ /\ _ |- _ => destruct Y end; try assumption;
        try (intros Z; first [specialize (Xb Z)|specialize (Xd Z)]; discriminate);
        try contradiction; try (specialize (Xb Y); discriminate); try (specialize (Xd Y); discriminate);
        match goal with A : ex _ |- _ => first [specialize (Xb A)|specialize (Xd A)]; discriminate end. }
    cbn [app List.length] in E1; rewrite E1 in S; injection S as <-.
    exists ps; split; [exact E2|]; apply E3; apply tracks_declared; [exact Ht|exact K1].
  Qed.

  (** The variables of a kind can be read whenever the index can. *)
  Theorem C89_kinds_read :
    forall d a m0 os m l,
      describes d a -> new_model a = Ok m0 -> run os m0 = (m, l) ->
      additions_made V space_t sol_t l -> repaired V space_t sol_t l ->
      distinct V (effects os d) ->
      forall k m', (exists vs, kind_vars k m = (m', Ok vs)) <-> (exists x, step (Read RIndexes) m = (m', Ok (OValue (VIndexes x)))).
  Proof.
    intros d a m0 os m l D H R A P N k m'.
    destruct (start V O zero one truthy isnum float_of trunc parse_text space_t sol_t space d a m0 D (distinct_effects V one os d N) H) as (K & C & _ & _).
    pose proof (run_current V O zero one truthy isnum float_of trunc parse_text keeps space_t sol_t space solver os m0 m l R A (or_introl C) P) as C'.
    unfold Views.kind_vars, ModelState.step, ok_with.
    destruct (read V O zero isnum space_t sol_t space RIndexes m) as [m1 [w|e]] eqn:E; cbn [fst snd bind].
    2:{ split; intros (? & X); discriminate. }
    destruct (read_current V O zero truthy isnum float_of trunc parse_text space_t sol_t space RIndexes m m1 _ C' E) as (x & st & dy & sp & F & G); cbn [reading_of] in G; subst w.
    split; intros (y & X); [injection X as <- _; eauto|]; injection X as <- _.
    destruct F as (lls & F1 & F2 & _).
    assert (Hx : List.length (mask (class_of k) x) <= List.length (d_endog V (definition m1))).
    { apply lls_names in F1.
      assert (LL : List.length lls = List.length (d_endog V (definition m1))) by (rewrite <- (map_length fst), F1, map_length; reflexivity).
      rewrite <- LL; exact (mask_length (class_of k) lls _ _ F2). }
    unfold choose, members; clear - Hx.
    enough (G : forall (mk : list bool) i, i + List.length mk <= List.length (d_endog V (definition m1)) ->
      exists vs, mapM (fun i => match nth_error (d_endog V (definition m1)) i with Some a => Ok a | None => Err IndexErr end) (where_ mk i) = Ok vs).
    { destruct (G _ 0 Hx) as (vs & ->); eauto. }
    induction mk as [|b mk IH]; intros i Hi; [exists []; reflexivity|]; cbn [List.length] in Hi; destruct (IH (S i)) as (vs & E); [lia|].
    destruct b; cbn [where_ mapM]; [|eauto]; rewrite E.
    destruct (nth_error (d_endog V (definition m1)) i) eqn:En; [cbn [bind]; eauto|].
    apply nth_error_None in En; lia.
  Qed.

  (** C89, the values at the boundaries and the shocks: what was declared, at every moment
      of a history in which no addition raised. *)
  Theorem C89_values :
    (forall v, truthy v = false -> v = zero) ->
    forall d a m0 os m l,
      describes d a -> new_model a = Ok m0 -> run os m0 = (m, l) ->
      additions_made V space_t sol_t l -> distinct V (effects os d) ->
      let D := effects os d in
      initial V space_t sol_t m = map (fun p => starts V zero (fst (fst (snd p))) (snd (fst (snd p))) (snd (snd p))) (m_endog V D) /\
      terminal V space_t sol_t m = map (fun p => snd (fst (snd p))) (m_endog V D) /\
      historical V space_t sol_t m = map (fun p => snd (snd p)) (m_endog V D) /\
      exog V space_t sol_t m = map fst (m_stoch V D) ++ map fst (m_determ V D).
  Proof.
    intros Ht d a m0 os m l D H R A N D'.
    destruct (start V O zero one truthy isnum float_of trunc parse_text space_t sol_t space d a m0 D (distinct_effects V one os d N) H) as (K & _ & _ & _).
    pose proof (run_known V O zero one truthy isnum float_of trunc parse_text keeps space_t sol_t space solver os d m0 m l K R A) as K'.
    fold D' in K'; pose proof (tracks_declared Ht _ _ K') as T.
    unfold initial, terminal, historical, exog; repeat apply conj.
    - clear - T; induction T as [|p v l l' (_ & _ & _ & E) _ IH]; [reflexivity|]; cbn [map]; rewrite IH, E; reflexivity.
    - clear - T; induction T as [|p v l l' (_ & E & _) _ IH]; [reflexivity|]; cbn [map]; rewrite IH, E; reflexivity.
    - clear - T; induction T as [|p v l l' (_ & _ & E & _) _ IH]; [reflexivity|]; cbn [map]; rewrite IH, E; reflexivity.
    - f_equal; [exact (tracks_stoch_names V O zero truthy float_of trunc parse_text _ _ K')|
                exact (tracks_determ_names V O zero truthy float_of trunc parse_text _ _ K')].
  Qed.
End Properties.
Print Assumptions C89_kinds_partial.
Print Assumptions C89_kinds_read.
Print Assumptions C89_values.

(** ** A model read from a file and extended *)

Local Open Scope string_scope.
Definition okind (k : kind) := kind_vars (option Z) OZ (Some 0%Z) oisnum oscope oscope ospace k.
Definition growing : string := "var c k z; varexo e; parameters a; a = 2; model; c = a*c(+1) + k; k = a*k(-1) + e; z = z(-1) + z(+1); end; initval; k = 3; end; shocks; var e = 1; end;".
Definition grown : list (op (option Z)) :=
  [Read RIndexes; AddEndog ["y"; "w"] (fun x => if String.eqb x "w" then Some (Some 7%Z) else None) (fun _ => None) (fun _ => None);
   AddExprs [GText (chars "y = c + k;"); GText (chars "w = w(-1) + c(-1);")]].
Definition kinds_shown (m : mstate (option Z) oscope oscope) : list (option (list string)) :=
  map (fun k => match snd (okind k m) with Ok vs => Some (map ev_name vs) | Err _ => None end)
    [KState; KForward; KPureForward; KBackward; KPureBackward; KMixed; KStatic].

Example C89_nonvacuous :
  exists m0 m l, ofile_model growing = Ok m0 /\ orun true grown m0 = (m, l) /\
    additions_made (option Z) oscope oscope l /\ repaired (option Z) oscope oscope l /\
    kinds_shown m0 = [Some ["k"; "z"]; Some ["c"; "z"]; Some ["c"]; Some ["k"; "z"]; Some ["k"]; Some ["z"]; Some []] /\
    kinds_shown m = [Some ["c"; "k"; "z"; "w"]; Some ["c"; "z"]; Some []; Some ["c"; "k"; "z"; "w"]; Some ["k"; "w"]; Some ["c"; "z"]; Some ["y"]] /\
    initial (option Z) oscope oscope m = [Some (Some 0); Some (Some 3); Some (Some 0); Some (Some 0); Some (Some 7)]%Z /\
    exog (option Z) oscope oscope m = ["e"].
Proof.
  do 3 eexists; split; [vm_compute; reflexivity|]; split; [vm_compute; reflexivity|].
  split; [intros o e H; cbn [In] in H; repeat (destruct H as [H|H]; [discriminate|]); destruct H|].
  split; [intros l1 o e l2 H; exfalso; assert (X : In (o, Err e) (l1 ++ (o, Err e) :: l2)) by (apply in_or_app; right; left; reflexivity);
    rewrite <- H in X; cbn [In] in X; repeat (destruct X as [X|X]; [discriminate|]); destruct X|].
  repeat split; vm_compute; reflexivity.
Qed.

(** C89 is false as it stands: a variable that occurs with two lags is listed as one that
    occurs with a lead, and not as a state. *)
Theorem C89_kinds_refuted :
  exists m, ofile_model "var x; varexo e; parameters a; a = 2; model; x = a*x(-2) + e; end; shocks; var e = 1; end;" = Ok m /\
    kinds_shown m = [Some []; Some ["x"]; Some ["x"]; Some []; Some []; Some []; Some []].
Proof. eexists; split; vm_compute; reflexivity. Qed.
Print Assumptions C89_kinds_refuted.

(** A terminal or historical value takes away the default: the variable starts at nothing. *)
Theorem C89_values_refuted :
  exists m, ofile_model "var x; varexo e; parameters a; a = 2; model; x = a*x(-1) + e; end; endval; x = 4; end; shocks; var e = 1; end;" = Ok m /\
    initial (option Z) oscope oscope m = [None] /\ terminal (option Z) oscope oscope m = [Some (Some 4%Z)].
Proof. eexists; split; [vm_compute; reflexivity|]; split; vm_compute; reflexivity. Qed.
Print Assumptions C89_values_refuted.

(** ** Arrays of variables *)

(** An array can be made of objects that have a name and are of one type, and of no others;
    it keeps the names in order. *)
Theorem C89_arrays :
  forall l a, new_array l = Ok a <->
    (map o_name l = map Some (a_names a) /\ Forall (fun o => o_vtype o = Some (a_vtype a)) l /\ (l = [] -> a_vtype a = "")).
Proof.
  intros l a; unfold new_array, attr_of.
  assert (M : forall (f : obj -> option string) l ns, mapM (fun o => match f o with Some x => Ok x | None => Err TypeErr end) l = Ok ns <-> map f l = map Some ns).
  { clear; intros f; induction l as [|o l IH]; intros [|n ns]; cbn [mapM map]; split; intros H; try discriminate; try reflexivity.
    - destruct (f o); [|discriminate]; cbn [bind] in H; apply bind_ok in H as (? & _ & H); discriminate.
    - destruct (f o) as [y|]; [|discriminate]; cbn [bind] in H; apply bind_ok in H as (r & Hr & H); injection H as <- <-; f_equal; apply IH; exact Hr.
    - injection H as H1 H2; rewrite H1; cbn [bind]; apply IH in H2; rewrite H2; reflexivity. }
  split.
  - intros H; apply bind_ok in H as (ns & Hn & H); apply bind_ok in H as (ts & Ht & H); apply M in Hn; apply M in Ht.
    destruct ts as [|t ts].
    + injection H as <-; destruct l; [|discriminate]; cbn [a_names a_vtype]; repeat split; auto.
    + destruct (forallb (String.eqb t) (t :: ts)) eqn:E; [|discriminate]; injection H as <-; cbn [a_names a_vtype].
      split; [exact Hn|]; split; [|intros ->; discriminate].
      rewrite forallb_forall in E; apply Forall_forall; intros o Ho.
      assert (In (o_vtype o) (map Some (t :: ts))) as X by (rewrite <- Ht; apply in_map; exact Ho).
      apply in_map_iff in X as (u & <- & Hu); apply E, String.eqb_eq in Hu; rewrite Hu; reflexivity.
  - intros (H1 & H2 & H3).
    assert (Ht : map o_vtype l = map Some (map (fun _ => a_vtype a) l)).
    { clear - H2; induction H2 as [|o l E _ IH]; [reflexivity|]; cbn [map]; rewrite E, IH; reflexivity. }
    apply M in H1; apply M in Ht; rewrite H1; cbn [bind]; rewrite Ht; cbn [bind]; destruct l as [|o l]; cbn [map].
    + rewrite <- (H3 eq_refl); destruct a; reflexivity.
    + replace (forallb (String.eqb (a_vtype a)) (a_vtype a :: map (fun _ => a_vtype a) l)) with true; [destruct a; reflexivity|].
      symmetry; apply forallb_forall; intros y [<-|Hy]; [apply String.eqb_refl|].
      apply in_map_iff in Hy as (? & <- & _); apply String.eqb_refl.
Qed.
Print Assumptions C89_arrays.

Definition item_name (k : item) : option string := match k with AName x | AVariable x => Some x | AOther => None end.
Lemma positions_spec x : forall names k, let is := positions x names k in
  NoDup is /\ forall i, In i is <-> k <= i /\ nth_error names (i - k) = Some x.
Proof.
  induction names as [|y names IH]; intros k; cbn [positions].
  - split; [constructor|]; intros i; split; [intros []|]; intros [_ H]; destruct (i - k); discriminate.
  - destruct (IH (S k)) as (N & S); destruct (String.eqb_spec x y) as [->|Hy].
    + split.
      * constructor; [|exact N]; intros H; apply S in H as [H _]; lia.
      * intros i; cbn [In]; rewrite S; split.
        -- intros [<-|[H1 H2]]; [rewrite Nat.sub_diag; split; [lia|reflexivity]|]; split; [lia|].
           replace (i - k) with (Datatypes.S (i - Datatypes.S k)) by lia; exact H2.
        -- intros [H1 H2]; destruct (Nat.eq_dec k i) as [->|Hk]; [left; reflexivity|right]; split; [lia|].
           replace (i - k) with (Datatypes.S (i - Datatypes.S k)) in H2 by lia; exact H2.
    + split; [exact N|]; intros i; rewrite S; split.
      * intros [H1 H2]; split; [lia|]; replace (i - k) with (Datatypes.S (i - Datatypes.S k)) by lia; exact H2.
      * intros [H1 H2]; destruct (Nat.eq_dec k i) as [->|Hk].
        -- rewrite Nat.sub_diag in H2; injection H2 as ->; contradiction.
        -- split; [lia|]; replace (i - k) with (Datatypes.S (i - Datatypes.S k)) in H2 by lia; exact H2.
Qed.

(** A variable is found by its name: the one place that has this name; a KeyError when no
    place has it, a ValueError when several have it. *)
Theorem C89_lookup :
  forall a k,
    (contains a k = true <-> exists x, item_name k = Some x /\ In x (a_names a)) /\
    (forall i, get_one a k = Ok i <->
       exists x, item_name k = Some x /\ forall j, nth_error (a_names a) j = Some x <-> j = i) /\
    (get_one a k = Err KeyErr <-> contains a k = false) /\
    (get_one a k = Err ValueErr <->
       exists x i j, item_name k = Some x /\ i < j /\ nth_error (a_names a) i = Some x /\ nth_error (a_names a) j = Some x).
Proof.
  intros a k.
  assert (C : contains a k = true <-> exists x, item_name k = Some x /\ In x (a_names a)).
  { destruct k as [x|x|]; cbn [contains item_name].
    1,2: unfold mem; rewrite existsb_exists; split; [intros (y & Hy & E); apply String.eqb_eq in E; subst; eauto|].
    1,2: intros (y & E & Hy); injection E as <-; exists x; split; [exact Hy|apply String.eqb_refl].
    split; [discriminate|intros (y & E & _); discriminate]. }
  split; [exact C|].
  assert (G : forall x, item_name k = Some x -> get_one a k = match positions x (a_names a) 0 with [] => Err KeyErr | [i] => Ok i | _ => Err ValueErr end).
  { intros x E; destruct k; cbn [item_name] in E; try discriminate; injection E as ->; reflexivity. }
  destruct (item_name k) as [x|] eqn:Ek.
  2:{ destruct k; try discriminate; cbn [get_one contains].
      split; [intros i; split; [discriminate|intros (? & E & _); discriminate]|].
      split; [split; reflexivity|]; split; [discriminate|intros (? & ? & ? & E & _); discriminate]. }
  rewrite (G x eq_refl); destruct (positions_spec x (a_names a) 0) as (N & S).
  assert (S' : forall i, In i (positions x (a_names a) 0) <-> nth_error (a_names a) i = Some x).
  { intros i; rewrite S, Nat.sub_0_r; split; [intros [_ H]; exact H|intros H; split; [lia|exact H]]. }
  clear S; revert N S'; generalize (positions x (a_names a) 0); intros is N S.
  assert (I : In x (a_names a) <-> is <> []).
  { split.
    - intros H; apply In_nth_error in H as (i & Hi); apply S in Hi; intros ->; destruct Hi.
    - destruct is as [|i is]; [congruence|]; intros _; apply nth_error_In with i, S; left; reflexivity. }
  assert (Cf : contains a k = false <-> is = []).
  { split; intros H.
    - destruct is as [|i is]; [reflexivity|]; exfalso; assert (contains a k = true) by (apply C; exists x; split; [reflexivity|apply I; discriminate]); congruence.
    - subst; apply Bool.not_true_is_false; intros E; apply C in E as (y & E & Hy); injection E as <-; apply I in Hy; congruence. }
  destruct is as [|i [|j is]].
  - split; [intros i; split; [discriminate|]; intros (y & E & H); injection E as <-; destruct (S i) as [_ X]; destruct (X (proj2 (H i) eq_refl))|].
    split; [rewrite Cf; split; reflexivity|].
    split; [discriminate|]; intros (y & i & j & E & _ & H & _); injection E as <-; destruct (proj2 (S i) H).
  - split.
    { intros i'; split.
      - intros E; injection E as <-; exists x; split; [reflexivity|]; intros j; rewrite <- S; cbn [In]; split; [intros [<-|[]]; reflexivity|intros ->; left; reflexivity].
      - intros (y & E & H); injection E as <-; f_equal; apply H, S; left; reflexivity. }
    split; [rewrite Cf; split; discriminate|].
    split; [discriminate|]; intros (y & i1 & i2 & E & L & H1 & H2); injection E as <-.
    apply S in H1 as [<-|[]]; apply S in H2 as [<-|[]]; lia.
  - split.
    { intros i'; split; [discriminate|]; intros (y & E & H); injection E as <-.
      assert (i = i') by (apply H, S; left; reflexivity); assert (j = i') by (apply H, S; right; left; reflexivity); subst.
      inversion N; subst; exfalso; apply H2; left; reflexivity. }
    split; [rewrite Cf; split; discriminate|]; split; [|reflexivity]; intros _.
    assert (i <> j) by (intros ->; inversion N; subst; apply H1; left; reflexivity).
    destruct (Nat.lt_ge_cases i j) as [L|L].
    + exists x, i, j; split; [reflexivity|]; split; [exact L|]; split; apply S; [left|right; left]; reflexivity.
    + exists x, j, i; split; [reflexivity|]; split; [lia|]; split; apply S; [right; left|left]; reflexivity.
Qed.
Print Assumptions C89_lookup.

(** Several at once: each in turn, in the order of the request. *)
Theorem C89_lookup_many :
  forall a ks,
    (forall is, get_many a ks = Ok is <-> Forall2 (fun k i => get_one a k = Ok i) ks is) /\
    (forall e, get_many a ks = Err e <-> exists ks1 k ks2, ks = (ks1 ++ k :: ks2)%list /\ get_one a k = Err e /\
       forall k', In k' ks1 -> exists i, get_one a k' = Ok i).
Proof.
  intros a ks; unfold get_many; split; [intros is; apply mapM_ok|].
  intros e; induction ks as [|k ks IH]; cbn [mapM].
  - split; [discriminate|]; intros ([|? ?] & ? & ? & E & _); discriminate.
  - destruct (get_one a k) as [i|e'] eqn:Ek; cbn [bind].
    + split.
      * intros H; destruct (mapM (get_one a) ks) as [is|e'] eqn:Em; [discriminate|]; cbn [bind] in H; injection H as ->.
        destruct (proj1 IH eq_refl) as (ks1 & k' & ks2 & -> & H1 & H2); exists (k :: ks1), k', ks2; split; [reflexivity|]; split; [exact H1|].
        intros k2 [<-|Hk]; eauto.
      * intros ([|k1 ks1] & k' & ks2 & E & H1 & H2); injection E as -> ->; [congruence|].
        rewrite (proj2 IH); [reflexivity|]; exists ks1, k', ks2; split; [reflexivity|]; split; [exact H1|]; intros k2 Hk; apply H2; right; exact Hk.
    + split.
      * intros H; injection H as ->; exists [], k, ks; split; [reflexivity|]; split; [exact Ek|intros ? []].
      * intros ([|k1 ks1] & k' & ks2 & E & H1 & H2); injection E as -> ->; [congruence|].
        destruct (H2 k1 (or_introl eq_refl)); congruence.
Qed.
Print Assumptions C89_lookup_many.

Example C89_lookup_nonvacuous :
  new_array [Obj (Some "c") (Some "endog"); Obj (Some "k") (Some "endog"); Obj (Some "c") (Some "endog")] = Ok (VArray "endog" ["c"; "k"; "c"]) /\
  new_array [Obj (Some "c") (Some "endog"); Obj (Some "e") (Some "stoch")] = Err TypeErr /\
  new_array [Obj (Some "c") None] = Err TypeErr /\
  get_many (VArray "endog" ["c"; "k"; "y"]) [AName "y"; AVariable "c"] = Ok [2; 0] /\
  get_one (VArray "endog" ["c"; "k"; "c"]) (AName "c") = Err ValueErr /\
  get_one (VArray "endog" ["c"; "k"; "c"]) (AName "q") = Err KeyErr.
Proof. repeat split; vm_compute; reflexivity. Qed.

(** ** Columns by period *)

(** Nine keys are accepted; the columns are those of the variables at that period. *)
Theorem C89_periods :
  forall cls x k,
    (In k [PName "t-1"; PName "-1"; PNumber (-1)] -> timed_at cls x k = timed cls x (-1)) /\
    (In k [PName "t"; PName "0"; PNumber 0] -> timed_at cls x k = timed cls x 0) /\
    (In k [PName "t+1"; PName "+1"; PNumber 1] -> timed_at cls x k = timed cls x 1) /\
    (~ In k [PName "t-1"; PName "-1"; PNumber (-1); PName "t"; PName "0"; PNumber 0; PName "t+1"; PName "+1"; PNumber 1] ->
     timed_at cls x k = Err ValueErr).
Proof.
  intros cls x k; repeat split.
  1-3: intros H; cbn [In] in H; repeat (destruct H as [<-|H]; [reflexivity|]); destruct H.
  intros H; unfold timed_at; destruct k as [s|z]; cbn [period_of].
  - cbn [lookup]; repeat match goal with |- context [String.eqb ?u ?v] => destruct (String.eqb_spec u v) as [Hs|_]; [exfalso; apply H; subst; cbn [In]; tauto|] end; reflexivity.
  - cbn [existsb]; repeat match goal with |- context [(?u =? ?v)%Z] => destruct (Z.eqb_spec u v) as [Hs|_]; [exfalso; apply H; subst; cbn [In]; tauto|] end; reflexivity.
Qed.
Print Assumptions C89_periods.
