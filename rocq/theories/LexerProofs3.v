From Verif Require Import Base Lexer LexerSpec LexerProofs LexerProofs2.

(** Number literals kept as their text; [float] accepts at most one dot and at
    least one digit (used in examples and witnesses only). *)
Definition lit_of (w : text) : option string :=
  if (existsb isdigit w) && (List.length (filter (fun c => ceq c ".") w) <=? 1)
  then Some (str w) else None.

Definition lex := tokenize string lit_of.
Definition lexs (g : cfg) (s : string) := lex g (chars s).

(** Writing tokens one after the other, each with its text and some blanks
    behind it. *)
Definition written (N : Type) := list (tok N * text * text).
Definition render {N} (l : written N) : text :=
  concat (map (fun x => snd (fst x) ++ snd x) l).

Section Proofs.
  Variable N : Type.
  Variable float_of : text -> option N.
  Variable g : cfg.

  Fixpoint located (p : pos) (l : written N) : list (ltok N) :=
    match l with
    | [] => []
    | (t, w, b) :: l' => at_pos N t (pos_after p w) :: located (pos_after p (w ++ b)) l'
    end.

  Lemma blank_layout b : blank b -> layout g b.
  Proof.
    intros H; rewrite <- (app_nil_r b); apply (Layout g b [] []); auto.
  Qed.

  Lemma blank_follows t b r : blank b -> b <> [] -> follows N g t (b ++ r).
  Proof.
    intros H Hne; destruct b as [|c b]; [congruence|]; cbn [app follows].
    unfold blank in H; cbn [forallb] in H; apply andb_prop in H as [H _].
    pose proof (ascii_all (fun c => negb (isspace c) ||
      (negb (ident_char c) && negb (number_char c) && negb (ceq c "=") && negb (ceq c "*") && negb (ceq c "/")))
      ltac:(vm_compute; reflexivity) c) as A; cbn beta in A; rewrite H in A.
    destruct (ident_char c) eqn:E1, (number_char c) eqn:E2, (ceq c "=") eqn:E3, (ceq c "*") eqn:E4, (ceq c "/") eqn:E5;
      try discriminate A.
    destruct t as [| | | | | |y]; cbn [sticks]; auto; destruct y; auto; destruct g; auto; rewrite E4, E5; reflexivity.
  Qed.

  Lemma spells_render p b0 l :
    Forall (fun x => writes N float_of g (fst (fst x)) (snd (fst x)) /\ blank (snd x) /\ snd x <> []) l ->
    blank b0 -> (l = [] -> b0 <> []) ->
    exists e, spells N float_of g p (located (pos_after p b0) l ++ [e; e]) (b0 ++ render l) /\ tk e = TEof.
  Proof.
    intros H; revert p b0; induction H as [|[[t w] b] l [Hw [Hb Hne]] Hl IH]; intros p b0 Hb0 Hne0.
    - unfold render; cbn [map concat located app]; rewrite app_nil_r.
      eexists; split; [apply Sp_layout; [apply blank_layout; exact Hb0|auto]|reflexivity].
    - cbn [fst snd] in *; destruct (IH (pos_after (pos_after p b0) w) b) as (e & Hs & He); [exact Hb| auto |].
      exists e; split; [|exact He].
      cbn [located app]; unfold render; cbn [map concat fst snd]; fold (render l).
      rewrite <- !app_assoc, !pos_after_app.
      rewrite <- (pos_after_app p b0 w); rewrite <- (pos_after_app p b0 w) in Hs.
      apply Sp_tok; auto using blank_layout.
      destruct b; [congruence|]; apply blank_follows; [exact Hb|discriminate].
  Qed.

  Lemma located_tk p l : map tk (located p l) = map (fun x => fst (fst x)) l.
  Proof.
    revert p; induction l as [|[[t w] b] l IH]; intros p; cbn [located map]; [reflexivity|].
    rewrite IH; reflexivity.
  Qed.

  Theorem tokenize_render b0 l :
    Forall (fun x => writes N float_of g (fst (fst x)) (snd (fst x)) /\ blank (snd x) /\ snd x <> []) l ->
    blank b0 -> l <> [] ->
    exists lts, tokenize N float_of g (b0 ++ render l) = Ok lts /\
      map tk lts = map (fun x => fst (fst x)) l ++ [TEof; TEof].
  Proof.
    intros H Hb0 Hne.
    destruct (spells_render (1, 0) b0 l H Hb0) as (e & Hs & He); [congruence|].
    eexists; split.
    - apply tokenize_spells; [exact Hs|].
      destruct l as [|[[t w] b] l]; [congruence|].
      intros X; apply app_eq_nil in X as [_ X]; unfold render in X; cbn [map concat fst snd] in X.
      apply app_eq_nil in X as [X _]; apply app_eq_nil in X as [_ X].
      inv H; cbn in *; tauto.
    - rewrite map_app, located_tk; cbn [map]; rewrite He; reflexivity.
  Qed.

  Lemma pos_after_line p t : fst (pos_after p t) = fst p + count_occ ascii_dec t nl.
  Proof.
    revert p; induction t as [|c t IH]; intros p; cbn [count_occ]; [cbn; lia|].
    unfold pos_after in *; cbn [fold_left]; rewrite IH.
    unfold pos_step; destruct (ceq_spec c nl), (ascii_dec c nl); cbn [fst]; try congruence; lia.
  Qed.

  (** Tokens that are not keywords or functions keep the location they were
      given. *)
  Lemma observed_fresh (ts : list (ltok N)) u : shared N (tk u) = None -> observed N ts u = u.
  Proof.
    intros H; unfold observed.
    destruct (find _ (rev ts)) as [v|] eqn:E; [|reflexivity].
    apply find_some in E as [_ E]; unfold same_shared in E; rewrite H in E.
    destruct (shared N (tk v)); discriminate.
  Qed.

  (** Every token of a spelled text stands at the end of a prefix of it. *)
  Lemma spells_prefix p ts t u :
    spells N float_of g p ts t -> In u ts ->
    exists pre post, t = pre ++ post /\ (tline u, tcol u) = pos_after p pre.
  Proof.
    intros H; induction H as [p|p lay Hl Hne|p lay x w ts r Hl Hw Hf Hs IH]; intros Hu.
    - destruct Hu as [<-|[]]; exists [], []; split; auto.
      cbn; rewrite <- surjective_pairing; reflexivity.
    - exists lay, []; rewrite app_nil_r; split; auto.
      destruct Hu as [<-|[<-|[]]]; cbn [tline tcol at_pos]; rewrite <- surjective_pairing; reflexivity.
    - destruct Hu as [<-|Hu].
      + exists (lay ++ w), r; rewrite app_assoc; split; auto.
        cbn [tline tcol at_pos]; rewrite <- surjective_pairing; reflexivity.
      + destruct (IH Hu) as (pre & post & -> & E).
        exists ((lay ++ w) ++ pre), post; rewrite pos_after_app, <- !app_assoc; auto.
  Qed.

  (** A text given as tokens with the layout (white space and comments) standing
      before each, and the layout at its end. *)
  Fixpoint weave (l : list (text * tok N * text)) (e : text) : text :=
    match l with [] => e | (lay, _, w) :: l' => lay ++ w ++ weave l' e end.
  Fixpoint separated (l : list (text * tok N * text)) (e : text) : Prop :=
    match l with
    | [] => layout g e
    | (lay, t, w) :: l' =>
        layout g lay /\ writes N float_of g t w /\ follows N g t (weave l' e) /\ separated l' e
    end.
  Definition not_eof (k : tok N) : bool := match k with TEof => false | _ => true end.

  Lemma writes_not_eof t w : writes N float_of g t w -> not_eof t = true.
  Proof. intros []; reflexivity. Qed.

  Lemma weave_spells p l e :
    separated l e ->
    exists ts, spells N float_of g p ts (weave l e) /\
      filter not_eof (map tk ts) = map (fun x => snd (fst x)) l.
  Proof.
    revert p; induction l as [|[[lay t] w] l IH]; intros p; cbn [separated weave].
    - intros H; destruct e as [|c e].
      + eexists; split; [apply Sp_eof|reflexivity].
      + eexists; split; [apply Sp_layout; [exact H|discriminate]|reflexivity].
    - intros (Hl & Hw & Hf & Hs); destruct (IH (pos_after p (lay ++ w)) Hs) as (ts & Hts & E).
      eexists; split; [apply Sp_tok; eauto|].
      cbn [map filter at_pos tk fst snd]; rewrite (writes_not_eof _ _ Hw), E; reflexivity.
  Qed.

  Theorem tokenize_weave l e :
    separated l e -> weave l e <> [] ->
    exists ts, tokenize N float_of g (weave l e) = Ok ts /\
      filter not_eof (map tk ts) = map (fun x => snd (fst x)) l.
  Proof.
    intros H Hne; destruct (weave_spells (1, 0) l e H) as (ts & Hts & E).
    exists ts; split; [apply tokenize_spells; assumption|exact E].
  Qed.
End Proofs.
