(** Proofs about copies and regimes. *)
From Verif Require Import Base Syntax Lexer Parser Eval Semantics Factory Calib Indexing DynFunc Vars ExprList
  ModelState ModelStateSpec IndexingSpec IndexingProofs CalibSpec CalibProofs ModelStateProofs ModelStateProofs2.

Section Proofs.
  Variable V : Type.
  Variable O : ops V.
  Variable zero one : V.
  Variable truthy isnum : V -> bool.
  Variable float_of : text -> option V.
  Variable trunc : V -> option Z.
  Variable parse_text : text -> res (ast V).
  Variable keeps : bool.
  Variable default_locals : store V.
  Variable space_t sol_t : Type.
  Variable space : list (option V) -> steady_repr V -> repr V -> res space_t.

  Notation new_model := (ModelState.new_model V O zero one truthy float_of trunc parse_text space_t sol_t space).
  Notation copy := (ModelState.copy V O zero one truthy float_of trunc parse_text default_locals space_t sol_t space).
  Notation definition := (ModelState.definition V space_t sol_t).
  Notation tracks := (ModelStateProofs.tracks V O zero truthy float_of trunc parse_text).
  Notation new_evar := (Vars.new_evar V zero truthy).

  Lemma entries_lookup (f : evar V -> option V) l : forall acc, NoDup (map ev_name l) -> 
    (forall v, In v l -> lookup (ev_name v) acc = None) ->
    let d := fold_left (fun d v => match f v with Some a => Base.update (ev_name v) a d | None => d end) l acc in
    (forall v, In v l -> lookup (ev_name v) d = f v) /\ (forall x, ~ In x (map ev_name l) -> lookup x d = lookup x acc).
  Proof.
    induction l as [|w l IH]; intros acc N H; cbn zeta; cbn [fold_left]; [split; [intros v []|auto]|].
    cbn [map] in N; inversion N as [|? ? N1 N2]; subst.
    destruct (IH (match f w with Some a => Base.update (ev_name w) a acc | None => acc end) N2) as [I1 I2].
    { intros v Hv; destruct (f w) as [a|]; [|apply H; right; exact Hv].
      rewrite lookup_update; destruct (String.eqb_spec (ev_name v) (ev_name w)) as [E|E].
      - exfalso; apply N1; rewrite <- E; apply in_map; exact Hv.
      - apply H; right; exact Hv. }
    split.
    - intros v [<-|Hv]; [|apply I1; exact Hv].
      rewrite I2 by exact N1; destruct (f w) as [a|]; [rewrite lookup_update, String.eqb_refl; reflexivity|apply H; left; reflexivity].
    - intros x Hx; cbn [map] in Hx; rewrite I2 by (intros X; apply Hx; right; exact X).
      destruct (f w) as [a|]; [|reflexivity].
      rewrite lookup_update; destruct (String.eqb_spec x (ev_name w)) as [E|E]; [exfalso; apply Hx; left; auto|reflexivity].
  Qed.
  Lemma entries_spec f l v : NoDup (map ev_name l) -> In v l -> lookup (ev_name v) (entries V f l) = f v.
  Proof. intros N Hv; apply (proj1 (entries_lookup f l [] N (fun _ _ => eq_refl))); exact Hv. Qed.

  Lemma dict_lookup {A B} (name : A -> string) (val : A -> B) l : forall acc, NoDup (map name l) ->
    let d := fold_left (fun s k => Base.update (name k) (val k) s) l acc in
    (forall k, In k l -> lookup (name k) d = Some (val k)) /\ (forall x, ~ In x (map name l) -> lookup x d = lookup x acc).
  Proof.
    induction l as [|w l IH]; intros acc N; cbn zeta; cbn [fold_left]; [split; [intros v []|auto]|].
    cbn [map] in N; inversion N as [|? ? N1 N2]; subst.
    destruct (IH (Base.update (name w) (val w) acc) N2) as [I1 I2]; split.
    - intros v [<-|Hv]; [|apply I1; exact Hv].
      rewrite I2 by exact N1; rewrite lookup_update, String.eqb_refl; reflexivity.
    - intros x Hx; cbn [map] in Hx; rewrite I2 by (intros X; apply Hx; right; exact X).
      rewrite lookup_update; destruct (String.eqb_spec x (name w)) as [E|E]; [exfalso; apply Hx; left; auto|reflexivity].
  Qed.

  Lemma tracks_stoch_names d m : tracks d m -> map sv_name (d_stoch V m) = map fst (m_stoch V d).
  Proof.
    intros (_ & T & _); apply mapM_ok in T; induction T as [|p v l l' Hv _ IH]; [reflexivity|].
    cbn [map]; rewrite IH; f_equal; destruct p as [x [o v1 v2 v3|[|] [|]]]; cbn [new_svar fst snd] in Hv; inversion Hv; reflexivity.
  Qed.
  Lemma tracks_determ_names d m : tracks d m -> map dv_name (d_determ V m) = map fst (m_determ V d).
  Proof.
    intros (_ & _ & T & _); apply mapM_ok in T; induction T as [|p v l l' Hv _ IH]; [reflexivity|].
    cbn [map]; rewrite IH; f_equal; destruct p as [x [[|] [|] [|] [|]|p v1]]; cbn [new_dvar fst snd] in Hv; inversion Hv; reflexivity.
  Qed.

  Lemma evar_again x i t h ll ll' : let v := new_evar x i t h ll in
    new_evar (ev_name v) (ev_init v) (ev_term v) (ev_hist v) ll' = Evar (ev_name v) (ev_init v) (ev_term v) (ev_hist v) ll'.
  Proof.
    cbn zeta; unfold Vars.new_evar; cbn [ev_name ev_init ev_term ev_hist].
    destruct t, h; try reflexivity; destruct i as [i|]; [destruct (truthy i) eqn:E; [rewrite E; reflexivity|]|];
      destruct (truthy zero); reflexivity.
  Qed.

  (** What the copy is. *)
  Lemma copy_eq d m : distinct V d -> NoDup (keys (m_params V d)) -> tracks d (definition m) ->
    copy m =
    (do lc <- new_calibration V O float_of trunc default_locals;
     let D := definition m in
     let ns := map ev_name (d_endog V D) in
     let scope := merge V (solved V (d_params V D)) (solved V lc) in
     do lls <- Indexing.set_lead_lags V ns (trees (d_exprs V D));
     do st <- new_steady V ns (trees (d_exprs V D)) scope;
     do x <- index_manager lls (List.length (d_stoch V D));
     do dy <- new_dynamic V ns (map sv_name (d_stoch V D)) (trees (d_exprs V D)) scope x;
     do sp <- space (map ev_init (d_endog V D)) st dy;
     Ok (MState V space_t sol_t (Defs V (with_lead_lags V (d_endog V D) lls) true (d_stoch V D) true (d_determ V D)
           (Cal (Nested (d_params V D)) (solved V (d_params V D))) lc (d_exprs V D))
         (Cache V space_t x st dy sp None) false None)).
  Proof.
    intros (N1 & N2 & N3 & N4) NP T.
    unfold ModelState.copy, copy_args, ModelState.new_model; cbn zeta; cbn [g_endog g_stoch g_determ g_params g_locals g_shocks g_exprs g_init g_term g_hist].
    set (D := definition m) in *.
    pose proof (tracks_names V O zero truthy float_of trunc parse_text _ _ T) as HN.
    pose proof (tracks_stoch_names _ _ T) as HS; pose proof (tracks_determ_names _ _ T) as HD.
    rewrite <- HN in N1, N3; rewrite <- HS, <- HD in N2, N4.
    assert (N5 : ~ In ""%string (map sv_name (d_stoch V D))) by (intros X; apply N4; apply in_or_app; auto).
    assert (N6 : ~ In ""%string (map dv_name (d_determ V D))) by (intros X; apply N4; apply in_or_app; auto).
    rewrite (nonzero_names _ N3).
    rewrite (nonzero_res (fun ns => create_stoch V one ns _) _ N5 eq_refl).
    rewrite (nonzero_res (fun ns => create_determ V one ns _) _ N6 eq_refl).
    cbn [make_exprs bind].
    set (sh1 := fold_left _ (d_stoch V D) []); set (sh2 := fold_left _ (d_determ V D) sh1).
    assert (NS : NoDup (map sv_name (d_stoch V D))) by (clear - N2; induction (map sv_name (d_stoch V D)) as [|a l IH]; [constructor|]; inversion N2; subst; constructor;
      [intros X; apply H1; apply in_or_app; auto|apply IH; assumption]).
    assert (ND : NoDup (map dv_name (d_determ V D))) by (clear - N2; induction (map sv_name (d_stoch V D)) as [|a l IH]; [exact N2|]; inversion N2; subst; apply IH; assumption).
    assert (DJ : forall x, In x (map sv_name (d_stoch V D)) -> ~ In x (map dv_name (d_determ V D))).
    { clear - N2; induction (map sv_name (d_stoch V D)) as [|a l IH]; [intros x []|]; inversion N2; subst.
      intros x [<-|Hx]; [intros X; apply H1; apply in_or_app; auto|apply IH; assumption]. }
    destruct (dict_lookup sv_name (fun k => DStoch (Some (sv_other k)) (sv_variance k) (sv_corr k) (sv_cov k)) (d_stoch V D) [] NS) as [L1 _].
    destruct (dict_lookup dv_name (fun k => DDet (dv_periods k) (dv_values k)) (d_determ V D) sh1 ND) as [L2 L3].
    assert (CS : create_stoch V one (map sv_name (d_stoch V D)) sh2 = Ok (d_stoch V D)).
    { unfold create_stoch; apply mapM_ok.
      assert (G : forall l, (forall k, In k l -> In k (d_stoch V D)) -> Forall2 (fun a b => new_svar V a (match lookup a sh2 with Some d0 => d0 | None => DStoch None (Some one) None None end) = Ok b) (map sv_name l) l).
      { induction l as [|k l IH]; intros Hl; [constructor|]; cbn [map]; constructor; [|apply IH; intros k' Hk'; apply Hl; right; exact Hk'].
        assert (Hk : In k (d_stoch V D)) by (apply Hl; left; reflexivity).
        unfold sh2; rewrite L3 by (apply DJ; apply in_map; exact Hk); fold sh1 in L1; rewrite (L1 k Hk).
        destruct k; reflexivity. }
      apply G; auto. }
    assert (CD : create_determ V one (map dv_name (d_determ V D)) sh2 = Ok (d_determ V D)).
    { unfold create_determ; apply mapM_ok.
      assert (G : forall l, (forall k, In k l -> In k (d_determ V D)) -> Forall2 (fun a b => new_dvar V a (match lookup a sh2 with Some d0 => d0 | None => DDet (Some [0%Z]) (Some [one]) end) = Ok b) (map dv_name l) l).
      { induction l as [|k l IH]; intros Hl; [constructor|]; cbn [map]; constructor; [|apply IH; intros k' Hk'; apply Hl; right; exact Hk'].
        assert (Hk : In k (d_determ V D)) by (apply Hl; left; reflexivity).
        unfold sh2; rewrite (L2 k Hk); destruct k; reflexivity. }
      apply G; auto. }
    destruct T as (T1 & _ & _ & (cp & P1 & P2) & _ & _).
    assert (CP : new_calibration V O float_of trunc (Nested (d_params V D)) = Ok (Cal (Nested (d_params V D)) (solved V (d_params V D)))).
    { unfold new_calibration; cbn [definitions]; rewrite (solve_numbers V O float_of trunc); [reflexivity|].
      rewrite P1; cbn [solved].
      apply (satisfies_NoDup V O float_of trunc _ (m_params V d) NP), solve_satisfies; assumption. }
    destruct (new_calibration V O float_of trunc default_locals) as [lc|e]; cbn [bind]; [|reflexivity].
    rewrite CP; cbn [bind solved].
    destruct (Indexing.set_lead_lags V (map ev_name (d_endog V D)) (trees (d_exprs V D))) as [lls|e] eqn:Ell; cbn [bind]; [|reflexivity].
    destruct (new_steady V _ _ _) as [st|e]; cbn [bind]; [|reflexivity].
    rewrite CS; cbn [bind]; rewrite CD; cbn [bind].
    assert (CE : create_endog V zero truthy (map ev_name (d_endog V D)) (entries V ev_init (d_endog V D)) (entries V ev_term (d_endog V D))
                   (entries V ev_hist (d_endog V D)) lls = with_lead_lags V (d_endog V D) lls).
    { pose proof (lls_names V _ _ _ Ell) as Hn.
      assert (NL : NoDup (map fst lls)) by (rewrite Hn; exact N1).
      unfold create_endog, with_lead_lags; rewrite map_map.
      assert (G : forall l pre lls', (forall v, In v l -> In v (d_endog V D)) -> map fst lls' = map ev_name l -> lls = pre ++ lls' ->
        map (fun x => new_evar (ev_name x) (lookup (ev_name x) (entries V ev_init (d_endog V D))) (lookup (ev_name x) (entries V ev_term (d_endog V D)))
               (lookup (ev_name x) (entries V ev_hist (d_endog V D))) (lookup (ev_name x) lls)) l =
        map (fun p => let v := fst p in Evar (ev_name v) (ev_init v) (ev_term v) (ev_hist v) (Some (snd (snd p)))) (combine l lls')).
      { induction l as [|v l IH]; intros pre [|[y ps] lls'] Hl Hx E; try discriminate Hx; [reflexivity|].
        cbn [map fst] in Hx; injection Hx as H1 H2; cbn [combine map fst snd]; f_equal.
        - assert (Hv : In v (d_endog V D)) by (apply Hl; left; reflexivity).
          rewrite !(entries_spec _ _ v N1 Hv).
          rewrite (lookup_In (ev_name v) ps lls NL) by (rewrite E; apply in_or_app; right; left; congruence).
          assert (W : exists x i t h ll, v = new_evar x i t h ll).
          { clear - T1 Hv; induction T1 as [|p w l1 l2 Hw _ IH]; [destruct Hv|]; destruct Hv as [<-|Hv]; eauto 6. }
          destruct W as (x & i & t & h & ll & ->); apply evar_again.
        - apply (IH (pre ++ [(y, ps)])); [intros w Hw; apply Hl; right; exact Hw|exact H2|rewrite E, <- app_assoc; reflexivity]. }
      apply (G (d_endog V D) [] lls); auto. }
    rewrite CE.
    destruct (with_ll_names V _ _ (lls_names V _ _ _ Ell)) as (W1 & W2 & W3).
    unfold index_of; rewrite W3; cbn [bind]; rewrite W2; reflexivity.
  Qed.

  (** Replacing equations. *)
  Lemma replace_at_nth {A} (a : A) l : forall i j, nth_error (replace_at i a l) j = if (j =? i) && (i <? List.length l) then Some a else nth_error l j.
  Proof.
    induction l as [|b l IH]; intros [|i] [|j]; cbn [replace_at nth_error]; try reflexivity.
    - change (List.length (@nil A)) with 0; rewrite Bool.andb_false_r; reflexivity.
    - apply IH.
  Qed.
  Lemma replace_at_length {A} (a : A) l : forall i, List.length (replace_at i a l) = List.length l.
  Proof. induction l as [|b l IH]; intros [|i]; cbn [replace_at List.length]; auto. Qed.

  Lemma set_trees k g x y : ExprList.set V parse_text k g x = (y, Ok tt) ->
    exists e i, parse_given V parse_text g = Ok e /\ index (List.length (trees x)) k = Some i /\ trees y = replace_at i e (trees x).
  Proof.
    unfold ExprList.set; destruct (parse_given V parse_text g) as [e|er]; [|discriminate].
    destruct (index (List.length (trees x)) k) as [i|] eqn:Ei; [|discriminate].
    destruct (index (List.length (texts x)) k); [|discriminate].
    intros H; injection H as <-; exists e, i; auto.
  Qed.

  Lemma replace_spec kvs : forall x y, replace_exprs V parse_text kvs x = Ok y -> NoDup (map fst kvs) -> (forall k g, In (k, g) kvs -> (0 <= k)%Z) ->
    List.length (trees y) = List.length (trees x) /\
    (forall k g, In (k, g) kvs -> exists e, parse_given V parse_text g = Ok e /\ nth_error (trees y) (Z.to_nat k) = Some e) /\
    (forall i, ~ In (Z.of_nat i) (map fst kvs) -> nth_error (trees y) i = nth_error (trees x) i).
  Proof.
    induction kvs as [|[k g] kvs IH]; intros x y H N P; cbn [replace_exprs] in H.
    - injection H as <-; repeat apply conj; [reflexivity|intros k g []|reflexivity].
    - destruct (ExprList.set V parse_text k g x) as [x1 [[]|e]] eqn:Es; [|discriminate].
      destruct (set_trees _ _ _ _ Es) as (e & i & Hg & Hi & Ht).
      cbn [map fst] in N; inversion N as [|? ? N1 N2]; subst.
      destruct (IH _ _ H N2 (fun k' g' Hin => P k' g' (or_intror Hin))) as (L & A & B).
      assert (K0 : (0 <= k)%Z) by (apply (P k g); left; reflexivity).
      assert (Ki : i = Z.to_nat k /\ i < List.length (trees x)).
      { unfold index in Hi; destruct (Z.leb_spec 0 k); [|lia]; destruct (Z.ltb_spec k (Z.of_nat (List.length (trees x)))); cbn [andb] in Hi.
        - injection Hi as <-; split; [reflexivity|lia].
        - replace ((k <? 0)%Z) with false in Hi by (symmetry; apply Z.ltb_ge; lia); rewrite Bool.andb_false_r in Hi; discriminate. }
      destruct Ki as [-> Hlt]; rewrite Ht in L, B; rewrite replace_at_length in L; split; [exact L|]; split.
      + intros k' g' [E|Hin]; [|apply A; exact Hin].
        injection E as <- <-; exists e; split; [exact Hg|].
        rewrite B by (rewrite Z2Nat.id by exact K0; exact N1).
        rewrite replace_at_nth, Nat.eqb_refl; destruct (Nat.ltb_spec (Z.to_nat k) (List.length (trees x))); [reflexivity|lia].
      + intros j Hj; cbn [map fst] in Hj; rewrite B by (intros X; apply Hj; right; exact X).
        rewrite replace_at_nth; destruct (Nat.eqb_spec j (Z.to_nat k)) as [E|E]; [|reflexivity].
        exfalso; apply Hj; left; lia.
  Qed.
End Proofs.
