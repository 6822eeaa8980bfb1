From Verif Require Import Base Lexer LexerSpec.

Lemma ceq_spec a b : reflect (a = b) (ceq a b).
Proof. apply Ascii.eqb_spec. Qed.

Lemma ceq_refl a : ceq a a = true.
Proof. apply Ascii.eqb_refl. Qed.

(** Case analysis on a character by computation. *)
Lemma ascii_all (P : ascii -> bool) :
  forallb P (map ascii_of_nat (seq 0 256)) = true -> forall c, P c = true.
Proof.
  intros H c; rewrite forallb_forall in H; apply H.
  apply in_map_iff; exists (nat_of_ascii c); split.
  - apply ascii_nat_embedding.
  - apply in_seq; split; [lia|]; simpl plus.
    apply nat_ascii_bounded.
Qed.

Section Proofs.
  Variable N : Type.
  Variable float_of : text -> option N.
  Variable g : cfg.

  Notation tokenize := (tokenize N float_of g).
  Notation tokenize_loop := (tokenize_loop N float_of g).
  Notation next_token := (next_token N float_of g).
  Notation token_at := (token_at N float_of g).
  Notation writes := (writes N float_of g).
  Notation spells := (spells N float_of g).

  Definition st_at (r : text) (p : pos) : lst := St r (fst p) (snd p).

  Lemma step_pos c l k :
    (step_line c l, step_col c k) = pos_step (l, k) c.
  Proof.
    unfold step_line, step_col, pos_step; destruct (ceq c nl); cbn; f_equal; lia.
  Qed.

  Lemma pos_after_app p a b : pos_after p (a ++ b) = pos_after (pos_after p a) b.
  Proof. apply fold_left_app. Qed.

  Definition stops (p : ascii -> bool) (r : text) : Prop :=
    match r with [] => True | c :: _ => p c = false end.

  Lemma span_app p w r l k :
    forallb p w = true -> stops p r ->
    span p (w ++ r) l k = (w, st_at r (pos_after (l, k) w)).
  Proof.
    revert l k; induction w as [|c w IH]; cbn [forallb app]; intros l k Hw Hr.
    - destruct r as [|c r]; cbn in *; [reflexivity|]; rewrite Hr; reflexivity.
    - apply andb_prop in Hw as [Hc Hw]; cbn [span]; rewrite Hc, IH by assumption.
      rewrite step_pos; reflexivity.
  Qed.

  Lemma skip_whitespace_app w r p :
    blank w -> stops isspace r ->
    skip_whitespace (st_at (w ++ r) p) = st_at r (pos_after p w).
  Proof.
    intros Hw Hr; unfold skip_whitespace, st_at; cbn [rest line col].
    rewrite span_app by assumption; destruct p; reflexivity.
  Qed.

  Lemma advance_1 c r p : advance 1 (st_at (c :: r) p) = st_at r (pos_step p c).
  Proof.
    unfold advance, st_at, pos_step; cbn [rest line col skipn].
    destruct (ceq c nl); cbn; f_equal; lia.
  Qed.

  Lemma advance_2 c d r p :
    ceq c nl = false -> ceq d nl = false ->
    advance 2 (st_at (c :: d :: r) p) = st_at r (pos_after p [c; d]).
  Proof.
    intros Hc Hd; unfold advance, st_at, pos_after, pos_step; cbn [rest line col skipn fold_left].
    rewrite Hc, Hd; cbn; f_equal; lia.
  Qed.

  Lemma to_newline_app b r p :
    ~ In nl b -> to_newline (b ++ nl :: r) (fst p) (snd p) = Ok (st_at (nl :: r) (pos_after p b)).
  Proof.
    revert p; induction b as [|c b IH]; intros p Hb; cbn [app to_newline].
    - rewrite ceq_refl; reflexivity.
    - destruct (ceq_spec c nl) as [->|E]; [exfalso; apply Hb; left; reflexivity|].
      change (step_line c (fst p)) with (fst (step_line c (fst p), step_col c (snd p))).
      change (step_col c (snd p)) with (snd (step_line c (fst p), step_col c (snd p))) at 2.
      rewrite step_pos, <- surjective_pairing, IH; [reflexivity|].
      intros H; apply Hb; right; exact H.
  Qed.

  Lemma to_comment_end_app b r p :
    ~ In "*"%char b -> ~ In "/"%char b ->
    to_comment_end (b ++ "*"%char :: "/"%char :: r) (fst p) (snd p)
      = Ok (st_at ("*"%char :: "/"%char :: r) (pos_after p b)).
  Proof.
    revert p; induction b as [|c b IH]; intros p H1 H2; cbn [app to_comment_end].
    - reflexivity.
    - destruct (ceq_spec c "*") as [->|E]; [exfalso; apply H1; left; reflexivity|].
      cbn [orb].
      assert (Hd : is_char (hd_error (b ++ "*"%char :: "/"%char :: r)) "/" = false).
      { destruct b as [|d b]; [reflexivity|]; cbn.
        destruct (ceq_spec d "/") as [->|]; [exfalso; apply H2; right; left; reflexivity|reflexivity]. }
      rewrite Hd.
      change (step_line c (fst p)) with (fst (step_line c (fst p), step_col c (snd p))).
      change (step_col c (snd p)) with (snd (step_line c (fst p), step_col c (snd p))) at 2.
      rewrite step_pos, <- surjective_pairing, IH; [reflexivity| |];
        intros H; [apply H1 | apply H2]; right; exact H.
  Qed.

  (** Where a token or the end of the text begins: not white space, not a comment. *)
  Definition no_comment (r : text) : Prop :=
    is_singleline_comment g (st_at r (0,0)) = false /\
    is_multiline_comment g (st_at r (0,0)) = false.

  Definition clear (r : text) : Prop := stops isspace r /\ no_comment r.

  Lemma comment_pos r p :
    is_singleline_comment g (st_at r p) = is_singleline_comment g (st_at r (0,0)) /\
    is_multiline_comment g (st_at r p) = is_multiline_comment g (st_at r (0,0)).
  Proof. split; reflexivity. Qed.

  Lemma blank_nl_cons w r :
    blank w -> stops isspace r ->
    forall p, skip_whitespace (st_at (nl :: w ++ r) p) = st_at r (pos_after p (nl :: w)).
  Proof.
    intros Hw Hr p; change (nl :: w ++ r) with ((nl :: w) ++ r).
    apply skip_whitespace_app; [|exact Hr]. unfold blank in *; cbn [forallb]; rewrite Hw; reflexivity.
  Qed.

  Lemma skip_line_comment c r p :
    is_dynare g = true -> line_comment c -> stops isspace r ->
    is_singleline_comment g (st_at (c ++ r) p) = true /\
    skip_singleline_comment (st_at (c ++ r) p) = Ok (st_at r (pos_after p c)).
  Proof.
    intros Hg Hc Hr; unfold is_singleline_comment; rewrite Hg; cbn [andb].
    inv Hc.
    - split; [reflexivity|].
      unfold skip_singleline_comment, st_at; cbn [rest line col].
      rewrite app_comm_cons, <- app_assoc; cbn [app].
      change ("%"%char :: b ++ nl :: w ++ r) with (("%"%char :: b) ++ nl :: w ++ r).
      rewrite to_newline_app.
      + cbn [bind]. rewrite blank_nl_cons by assumption.
        rewrite <- pos_after_app; reflexivity.
      + intros [H'|H']; [discriminate|contradiction].
    - split; [reflexivity|].
      unfold skip_singleline_comment, st_at; cbn [rest line col].
      rewrite !app_comm_cons, <- app_assoc; cbn [app].
      change ("/"%char :: "/"%char :: b ++ nl :: w ++ r)
        with (("/"%char :: "/"%char :: b) ++ nl :: w ++ r).
      rewrite to_newline_app.
      + cbn [bind]. rewrite blank_nl_cons by assumption.
        rewrite <- pos_after_app; reflexivity.
      + intros [H'|[H'|H']]; [discriminate|discriminate|contradiction].
  Qed.

  Lemma skip_block_comment c r p :
    is_dynare g = true -> block_comment c -> stops isspace r ->
    is_singleline_comment g (st_at (c ++ r) p) = false /\
    is_multiline_comment g (st_at (c ++ r) p) = true /\
    skip_multiline_comment (st_at (c ++ r) p) = Ok (st_at r (pos_after p c)).
  Proof.
    intros Hg Hc Hr; unfold is_singleline_comment, is_multiline_comment; rewrite Hg; cbn [andb].
    inv Hc; split; [reflexivity|]; split; [reflexivity|].
    unfold skip_multiline_comment.
    cbn [app]; rewrite advance_2 by reflexivity.
    unfold st_at at 1; cbn [rest].
    rewrite <- app_assoc; cbn [app].
    unfold st_at; cbn [line col].
    rewrite to_comment_end_app by assumption.
    cbn [bind]; rewrite advance_2 by reflexivity.
    rewrite skip_whitespace_app by assumption.
    f_equal; unfold st_at; f_equal;
      (change ("/"%char :: "*"%char :: b ++ "*"%char :: "/"%char :: w)
        with (["/"%char; "*"%char] ++ b ++ ["*"%char; "/"%char] ++ w);
       rewrite !pos_after_app; reflexivity).
  Qed.

  Lemma line_comment_nonempty c : line_comment c -> c <> [].
  Proof. intros H; inv H; discriminate. Qed.
  Lemma block_comment_nonempty c : block_comment c -> c <> [].
  Proof. intros H; inv H; discriminate. Qed.

  Lemma line_comment_stops c r : line_comment c -> stops isspace (c ++ r).
  Proof. intros H; inv H; reflexivity. Qed.
  Lemma block_comment_stops c r : block_comment c -> stops isspace (c ++ r).
  Proof. intros H; inv H; reflexivity. Qed.

  Lemma concat_stops (P : text -> Prop) cs r :
    (forall c r, P c -> stops isspace (c ++ r)) ->
    Forall P cs -> stops isspace r -> stops isspace (concat cs ++ r).
  Proof.
    intros HP H Hr; inv H; cbn [concat app]; [exact Hr|].
    rewrite <- app_assoc; auto.
  Qed.

  Lemma skip_singles cs r p fuel :
    is_dynare g = true -> Forall line_comment cs -> stops isspace r ->
    is_singleline_comment g (st_at r (0,0)) = false ->
    List.length cs < fuel ->
    skip_while fuel (is_singleline_comment g) skip_singleline_comment (st_at (concat cs ++ r) p)
      = Ok (st_at r (pos_after p (concat cs))).
  Proof.
    intros Hg Hcs Hr Hs; revert p fuel; induction Hcs as [|c cs Hc Hcs IH]; intros p fuel Hf;
      (destruct fuel as [|fuel]; [cbn in Hf; lia|]); cbn [skip_while concat app].
    - rewrite (proj1 (comment_pos r p)), Hs; reflexivity.
    - rewrite <- app_assoc.
      destruct (skip_line_comment c (concat cs ++ r) p Hg Hc) as [E1 E2].
      { apply (concat_stops line_comment); auto using line_comment_stops. }
      rewrite E1, E2; cbn [bind]; rewrite IH by (cbn in Hf; lia).
      rewrite <- pos_after_app; reflexivity.
  Qed.

  Lemma skip_multis cs r p fuel :
    is_dynare g = true -> Forall block_comment cs -> stops isspace r ->
    is_multiline_comment g (st_at r (0,0)) = false ->
    List.length cs < fuel ->
    skip_while fuel (is_multiline_comment g) skip_multiline_comment (st_at (concat cs ++ r) p)
      = Ok (st_at r (pos_after p (concat cs))).
  Proof.
    intros Hg Hcs Hr Hs; revert p fuel; induction Hcs as [|c cs Hc Hcs IH]; intros p fuel Hf;
      (destruct fuel as [|fuel]; [cbn in Hf; lia|]); cbn [skip_while concat app].
    - rewrite (proj2 (comment_pos r p)), Hs; reflexivity.
    - rewrite <- app_assoc.
      destruct (skip_block_comment c (concat cs ++ r) p Hg Hc) as (E0 & E1 & E2).
      { apply (concat_stops block_comment); auto using block_comment_stops. }
      rewrite E1, E2; cbn [bind]; rewrite IH by (cbn in Hf; lia).
      rewrite <- pos_after_app; reflexivity.
  Qed.

  Lemma concat_length_ge (P : text -> Prop) cs :
    (forall c, P c -> c <> []) -> Forall P cs -> List.length cs <= List.length (concat cs).
  Proof.
    intros HP H; induction H as [|c cs Hc Hcs IH]; cbn; [lia|].
    rewrite app_length; specialize (HP _ Hc); destruct c; [congruence|cbn; lia].
  Qed.

  (** Skipping a layout in front of a token or of the end. *)
  Lemma skip_layout lay r p :
    layout g lay -> clear r ->
    exists r1 p1, skip_whitespace (st_at (lay ++ r) p) = st_at r1 p1 /\
      (r1 = [] -> r = [] /\ p1 = pos_after p lay) /\
      skip_comments g (st_at r1 p1) = Ok (st_at r (pos_after p lay)).
  Proof.
    intros Hl [Hr [Hc1 Hc2]]; inv Hl.
    exists ((concat cs ++ concat bs) ++ r), (pos_after p w); split; [|split].
    - rewrite <- app_assoc; apply skip_whitespace_app; [assumption|].
      rewrite <- app_assoc; apply (concat_stops line_comment); auto using line_comment_stops.
      apply (concat_stops block_comment); auto using block_comment_stops.
    - intros E; apply app_eq_nil in E as [E ->]; split; [reflexivity|].
      rewrite E, app_nil_r; reflexivity.
    - unfold skip_comments, st_at at 1; cbn [rest]; fold (st_at ((concat cs ++ concat bs) ++ r) (pos_after p w)).
      destruct (is_dynare g) eqn:Hg.
      + rewrite <- app_assoc, skip_singles; auto.
        * cbn [bind]. unfold st_at at 1; cbn [rest].
          rewrite skip_multis; auto.
          -- rewrite <- !pos_after_app; reflexivity.
          -- rewrite app_length; pose proof (concat_length_ge _ _ block_comment_nonempty H1); lia.
        * apply (concat_stops block_comment); auto using block_comment_stops.
        * inversion H1 as [|b bs' Hb Hbs]; subst; cbn [concat app]; [exact Hc1|].
          rewrite <- app_assoc.
          apply (skip_block_comment b (concat bs' ++ r) (0,0) Hg Hb).
          apply (concat_stops block_comment); auto using block_comment_stops.
        * rewrite app_length; pose proof (concat_length_ge _ _ line_comment_nonempty H0); lia.
      + destruct (H2 eq_refl) as [-> ->]; cbn [concat app].
        assert (E1 : is_singleline_comment g (st_at r (pos_after p w)) = false)
          by (unfold is_singleline_comment; rewrite Hg; reflexivity).
        assert (E2 : is_multiline_comment g (st_at r (pos_after p w)) = false)
          by (unfold is_multiline_comment; rewrite Hg; reflexivity).
        cbn [skip_while]; rewrite E1; cbn [bind skip_while]; rewrite E2.
        rewrite !app_nil_r; reflexivity.
  Qed.

  Lemma kw_chars k : In k dynare_kw ->
    match chars k with c :: r => letter c && forallb ident_char r | [] => false end = true.
  Proof.
    intros H.
    assert (A : forallb (fun k => match chars k with c :: r => letter c && forallb ident_char r | [] => false end) dynare_kw = true) by (vm_compute; reflexivity).
    rewrite forallb_forall in A; apply A; exact H.
  Qed.

  Lemma fun_chars k : In k reserved_funcs ->
    match chars k with c :: r => letter c && forallb ident_char r | [] => false end = true.
  Proof.
    intros H.
    assert (A : forallb (fun k => match chars k with c :: r => letter c && forallb ident_char r | [] => false end) reserved_funcs = true) by (vm_compute; reflexivity).
    rewrite forallb_forall in A; apply A; exact H.
  Qed.

  Lemma fun_not_kw k : In k reserved_funcs -> ~ In k (kws g).
  Proof.
    intros H; unfold kws; destruct (is_dynare g); [|auto].
    assert (A : forallb (fun k => negb (mem k dynare_kw)) reserved_funcs = true) by (vm_compute; reflexivity).
    rewrite forallb_forall in A; specialize (A _ H); apply negb_true_iff in A.
    apply mem_false; exact A.
  Qed.

  Lemma str_chars k : str (chars k) = k.
  Proof. apply string_of_list_ascii_of_string. Qed.

  Lemma ident_start_begchar c : ident_start g c = true -> valid_begchar g c = true.
  Proof.
    unfold ident_start, valid_begchar, letter; destruct g; cbn; auto.
    intros ->; reflexivity.
  Qed.

  Lemma letter_start c : letter c = true -> ident_start g c = true.
  Proof. unfold ident_start; intros ->; destruct g; reflexivity. Qed.

  Lemma ident_char_varchar c : valid_varchar c = ident_char c.
  Proof. unfold valid_varchar, ident_char, isalnum, letter; reflexivity. Qed.

  Lemma forallb_ext {A} (p q : A -> bool) l : (forall x, p x = q x) -> forallb p l = forallb q l.
  Proof. intros H; induction l; cbn; congruence. Qed.

  Lemma ident_start_char c : ident_start g c = true -> ident_char c = true.
  Proof.
    unfold ident_start, ident_char; destruct g, (letter c), (isdigit c), (ceq c "_"); cbn; congruence.
  Qed.

  (** Identifier-like tokens. *)
  Lemma token_at_ident c w r p :
    ident_start g c = true -> forallb ident_char w = true -> stops ident_char r ->
    token_at (st_at (c :: w ++ r) p) =
      Ok (at_pos N (if mem (str (c :: w)) (kws g) then TKw (str (c :: w))
                  else if mem (str (c :: w)) reserved_funcs then TFun (str (c :: w))
                  else TId (str (c :: w))) (pos_after p (c :: w)),
          st_at r (pos_after p (c :: w))).
  Proof.
    intros Hc Hw Hr; unfold Lexer.token_at; unfold st_at at 1; cbn [rest].
    rewrite ident_start_begchar by assumption.
    unfold lex_id, st_at; cbn [rest line col].
    change (c :: w ++ r) with ((c :: w) ++ r).
    rewrite span_app.
    - destruct p; reflexivity.
    - rewrite (forallb_ext _ ident_char) by apply ident_char_varchar.
      cbn [forallb]; rewrite ident_start_char by assumption; exact Hw.
    - destruct r; cbn in *; [exact I|]; rewrite ident_char_varchar; exact Hr.
  Qed.

  Lemma lex_str_body_app q b r p :
    ~ In q b -> lex_str_body q (b ++ q :: r) (fst p) (snd p)
                = Ok (b, st_at (q :: r) (pos_after p b)).
  Proof.
    revert p; induction b as [|c b IH]; intros p Hb; cbn [app lex_str_body].
    - rewrite ceq_refl; reflexivity.
    - destruct (ceq_spec c q) as [->|E]; [exfalso; apply Hb; left; reflexivity|].
      change (step_line c (fst p)) with (fst (step_line c (fst p), step_col c (snd p))).
      change (step_col c (snd p)) with (snd (step_line c (fst p), step_col c (snd p))) at 2.
      rewrite step_pos, <- surjective_pairing, IH; [reflexivity|].
      intros H; apply Hb; right; exact H.
  Qed.

  Lemma lex_sym_spec y r :
    writable g y = true -> follows N g (TSym y) r ->
    exists c w, sym_text g y = c :: w /\
      valid_begchar g c = false /\ valid_numchar c = false /\
      ceq c squote = false /\ ceq c dquote = false /\
      lex_sym g c (hd_error (w ++ r)) = Some (y, S (List.length w)) /\
      (w = [] \/ exists d, w = [d] /\ ceq d nl = false) /\ ceq c nl = false.
  Proof.
    intros Hy Hf.
    destruct y; try discriminate Hy; destruct g; try discriminate Hy;
      cbn [sym_text chars list_ascii_of_string];
      do 2 eexists; do 5 (split; [reflexivity|]);
      (split; [|split; [first [left; reflexivity | right; eexists; split; reflexivity] | reflexivity]]);
      try reflexivity;
      (destruct r as [|d r]; cbn [app hd_error]; [reflexivity|]);
      cbn [follows sticks] in Hf; unfold lex_sym, is_char; rewrite ?Hf; reflexivity.
  Qed.

  Lemma token_at_writes t w r p :
    writes t w -> follows N g t r ->
    token_at (st_at (w ++ r) p) = Ok (at_pos N t (pos_after p w), st_at r (pos_after p w)).
  Proof.
    intros Hw Hf; inversion Hw as [c w' H1 H2 H3 H4|k H|f H|c w' n H1 H2|q b H1 H2|y Hy]; subst; clear Hw.
    - cbn [app]; rewrite token_at_ident; auto.
      apply mem_false in H3; apply mem_false in H4; rewrite H3, H4; reflexivity.
    - unfold kws in H; destruct (is_dynare g) eqn:Hg; [|contradiction].
      pose proof (kw_chars _ H) as Hk; pose proof (str_chars k) as Es.
      destruct (chars k) as [|c w'] eqn:Ek; [discriminate|].
      apply andb_prop in Hk as [Hk1 Hk2].
      cbn [app]; rewrite token_at_ident; auto using letter_start.
      rewrite Es.
      assert (Hm : mem k (kws g) = true) by (unfold kws; rewrite Hg; apply mem_In; exact H).
      rewrite Hm; reflexivity.
    - pose proof (fun_chars _ H) as Hk; pose proof (str_chars f) as Es.
      pose proof (fun_not_kw _ H) as Hn.
      destruct (chars f) as [|c w'] eqn:Ek; [discriminate|].
      apply andb_prop in Hk as [Hk1 Hk2].
      cbn [app]; rewrite token_at_ident; auto using letter_start.
      rewrite Es.
      apply mem_false in Hn; rewrite Hn.
      apply mem_In in H; rewrite H; reflexivity.
    - cbn [app]; unfold Lexer.token_at; unfold st_at at 1; cbn [rest].
      pose proof H1 as H1'; cbn [forallb] in H1; apply andb_prop in H1 as [Hc Hw'].
      assert (Hb : valid_begchar g c = false).
      { pose proof (ascii_all (fun c => negb (number_char c) || (negb (isalpha c) && negb (ceq c "_")))
          ltac:(vm_compute; reflexivity) c) as A; cbn beta in A.
        rewrite Hc in A; unfold valid_begchar.
        destruct (isalpha c), (ceq c "_"); try discriminate A.
        rewrite andb_false_r; reflexivity. }
      rewrite Hb. change (valid_numchar c) with (number_char c); rewrite Hc.
      unfold lex_number, st_at; cbn [rest line col].
      change (c :: w' ++ r) with ((c :: w') ++ r).
      rewrite span_app; [|exact H1'|exact Hf].
      rewrite H2; destruct p; reflexivity.
    - unfold Lexer.token_at; unfold st_at at 1; cbn [app rest].
      assert (Hq : valid_begchar g q = false /\ valid_numchar q = false).
      { destruct H1 as [-> | ->]; unfold valid_begchar; destruct g; split; reflexivity. }
      destruct Hq as [-> ->].
      assert (Es : lex_string N q (st_at (q :: (b ++ [q]) ++ r) p)
        = Ok (at_pos N (TStr (str b)) (pos_after p (q :: b ++ [q])), st_at r (pos_after p (q :: b ++ [q])))).
      { unfold lex_string; rewrite advance_1; unfold st_at at 1 2 3; cbn [rest line col].
        rewrite <- app_assoc; cbn [app]; rewrite lex_str_body_app by assumption.
        cbn [bind snd fst]; rewrite advance_1.
        unfold st_at; cbn [line col].
        change (q :: b ++ [q]) with ([q] ++ b ++ [q]); rewrite !pos_after_app; reflexivity. }
      destruct H1 as [-> | ->].
      + rewrite ceq_refl; exact Es.
      + replace (ceq dquote squote) with false by reflexivity.
        rewrite ceq_refl; exact Es.
    - destruct (lex_sym_spec y r Hy Hf) as (c & w & E & B1 & B2 & B3 & B4 & B5 & B6 & B7).
      rewrite E; cbn [app]; unfold Lexer.token_at; unfold st_at at 1; cbn [rest].
      rewrite B1, B2, B3, B4.
      change (peek (st_at (c :: w ++ r) p)) with (hd_error (w ++ r)); rewrite B5.
      destruct B6 as [-> | (d & -> & Hd)]; cbn [List.length app].
      + rewrite advance_1; reflexivity.
      + rewrite advance_2 by assumption; reflexivity.
  Qed.

  Lemma clear_char c r :
    isspace c = false -> ceq c "%" = false -> ceq c "/" = false -> clear (c :: r).
  Proof.
    intros S1 S2 S3; unfold clear, no_comment, is_singleline_comment, is_multiline_comment, cur, is_char, st_at.
    cbn [rest hd_error stops]; rewrite S1, S2, S3; cbn [andb orb]; rewrite !andb_false_r; auto.
  Qed.

  Lemma writes_clear t w r :
    writes t w -> follows N g t r -> w <> [] /\ clear (w ++ r).
  Proof.
    intros Hw Hf; inversion Hw as [c w' H1 H2 H3 H4|k H|f H|c w' n H1 H2|q b H1 H2|y Hy]; subst; clear Hw.
    - split; [discriminate|].
      pose proof (ident_start_char _ H1) as Hc.
      pose proof (ascii_all (fun c => negb (ident_char c) || (negb (isspace c) && negb (ceq c "%") && negb (ceq c "/")))
          ltac:(vm_compute; reflexivity) c) as A; cbn beta in A; rewrite Hc in A.
      destruct (isspace c) eqn:S1, (ceq c "%") eqn:S2, (ceq c "/") eqn:S3; try discriminate A.
      apply clear_char; assumption.
    - unfold kws in H; destruct (is_dynare g) eqn:Hg; [|contradiction].
      pose proof (kw_chars _ H) as Hk; destruct (chars k) as [|c w']; [discriminate|].
      apply andb_prop in Hk as [Hc _]; split; [discriminate|].
      pose proof (ascii_all (fun c => negb (letter c) || (negb (isspace c) && negb (ceq c "%") && negb (ceq c "/")))
          ltac:(vm_compute; reflexivity) c) as A; cbn beta in A; rewrite Hc in A.
      destruct (isspace c) eqn:S1, (ceq c "%") eqn:S2, (ceq c "/") eqn:S3; try discriminate A.
      apply clear_char; assumption.
    - pose proof (fun_chars _ H) as Hk; destruct (chars f) as [|c w']; [discriminate|].
      apply andb_prop in Hk as [Hc _]; split; [discriminate|].
      pose proof (ascii_all (fun c => negb (letter c) || (negb (isspace c) && negb (ceq c "%") && negb (ceq c "/")))
          ltac:(vm_compute; reflexivity) c) as A; cbn beta in A; rewrite Hc in A.
      destruct (isspace c) eqn:S1, (ceq c "%") eqn:S2, (ceq c "/") eqn:S3; try discriminate A.
      apply clear_char; assumption.
    - split; [discriminate|].
      cbn [forallb] in H1; apply andb_prop in H1 as [Hc _].
      pose proof (ascii_all (fun c => negb (number_char c) || (negb (isspace c) && negb (ceq c "%") && negb (ceq c "/")))
          ltac:(vm_compute; reflexivity) c) as A; cbn beta in A; rewrite Hc in A.
      destruct (isspace c) eqn:S1, (ceq c "%") eqn:S2, (ceq c "/") eqn:S3; try discriminate A.
      apply clear_char; assumption.
    - split; [discriminate|].
      destruct H1 as [-> | ->]; apply clear_char; reflexivity.
    - unfold clear, no_comment; destruct y; try discriminate Hy; destruct g; try discriminate Hy;
        (split; [discriminate|]); try (repeat split; reflexivity).
      cbn [follows sticks] in Hf.
      unfold is_singleline_comment, is_multiline_comment, cur, peek, is_char; cbn.
      destruct r as [|d r]; cbn; [auto|].
      apply orb_false_iff in Hf as [F1 F2]; rewrite F1, F2; auto.
  Qed.

  Lemma clear_nil : clear [].
  Proof.
    unfold clear, no_comment, is_singleline_comment, is_multiline_comment; cbn.
    rewrite andb_false_r; auto.
  Qed.

  Lemma next_token_layout lay r p :
    layout g lay -> clear r -> lay ++ r <> [] ->
    next_token (st_at (lay ++ r) p) =
      match r with
      | [] => Ok (at_pos N TEof (pos_after p lay), st_at [] (pos_after p lay))
      | _ => token_at (st_at r (pos_after p lay))
      end.
  Proof.
    intros Hl Hr Hne.
    destruct (skip_layout lay r p Hl Hr) as (r1 & p1 & E1 & E2 & E3).
    unfold Lexer.next_token; unfold st_at at 1; cbn [rest].
    destruct (lay ++ r) as [|c0 t0] eqn:Et; [congruence|].
    rewrite E1; unfold st_at at 1; cbn [rest].
    destruct r1 as [|c1 r1].
    - destruct (E2 eq_refl) as [-> ->]; reflexivity.
    - rewrite E3; cbn [bind].
      destruct r; reflexivity.
  Qed.

  Theorem tokenize_loop_spells p ts t fuel :
    spells p ts t -> List.length t <= fuel ->
    tokenize_loop fuel (st_at t p) = Ok ts.
  Proof.
    intros H; revert fuel; induction H as [p|p lay Hl Hne|p lay tk w ts r Hl Hw Hf Hs IH]; intros fuel Hfuel.
    - destruct fuel; reflexivity.
    - destruct lay as [|c lay]; [congruence|].
      destruct fuel as [|fuel]; [cbn in Hfuel; lia|].
      cbn [Lexer.tokenize_loop]; unfold st_at at 1; cbn [rest].
      pose proof (next_token_layout (c :: lay) [] p Hl clear_nil) as E.
      rewrite app_nil_r in E; rewrite E by discriminate; cbn [bind snd fst].
      destruct fuel; reflexivity.
    - destruct (writes_clear _ _ _ Hw Hf) as [Hwne Hclr].
      assert (Hlen : 1 <= List.length w) by (destruct w; [congruence|cbn; lia]).
      rewrite !app_length in Hfuel.
      destruct fuel as [|fuel]; [lia|].
      pose proof (next_token_layout lay (w ++ r) p Hl Hclr) as E.
      cbn [Lexer.tokenize_loop]; unfold st_at at 1; cbn [rest].
      destruct (lay ++ w ++ r) as [|c0 t0] eqn:Et.
      { exfalso; apply app_eq_nil in Et as [_ Et]; apply app_eq_nil in Et as [Et _]; congruence. }
      rewrite E by congruence.
      destruct (w ++ r) as [|c1 t1] eqn:Ew.
      { exfalso; apply app_eq_nil in Ew as [Ew _]; congruence. }
      rewrite <- Ew, (token_at_writes _ _ _ _ Hw Hf).
      cbn [bind fst snd]; rewrite <- pos_after_app, IH by lia.
      reflexivity.
  Qed.

  Theorem tokenize_spells ts t :
    spells (1, 0) ts t -> t <> [] -> tokenize t = Ok ts.
  Proof.
    intros H Hne; unfold Lexer.tokenize; destruct t as [|c t]; [congruence|].
    change (St (c :: t) 1 0) with (st_at (c :: t) (1, 0)).
    apply tokenize_loop_spells; auto.
  Qed.
End Proofs.
