From Verif Require Import Base Lexer LexerSpec LexerProofs.

(** [infix_free a b t]: the two characters [a] [b] never stand side by side. *)
Fixpoint adjacent (a b : ascii) (t : text) : bool :=
  match t with
  | c :: ((d :: _) as t') => (ceq c a && ceq d b) || adjacent a b t'
  | _ => false
  end.

Lemma adjacent_app_r a b u t : adjacent a b (u ++ t) = false -> adjacent a b t = false.
Proof.
  induction u as [|c u IH]; cbn [app]; [auto|].
  intros H; apply IH; cbn [adjacent] in H.
  destruct (u ++ t) as [|d v]; [reflexivity|].
  apply orb_false_iff in H as [_ H]; exact H.
Qed.

Section Proofs.
  Variable N : Type.
  Variable float_of : text -> option N.
  Variable g : cfg.

  Notation tokenize := (tokenize N float_of g).
  Notation tokenize_loop := (tokenize_loop N float_of g).
  Notation next_token := (next_token N float_of g).
  Notation token_at := (token_at N float_of g).
  Notation writes := (writes N float_of g).
  Notation spells := (spells N float_of g).

  Lemma st_eta s : s = st_at (rest s) (line s, col s).
  Proof. destruct s; reflexivity. Qed.

  Lemma span_inv p r q w s :
    span p r (fst q) (snd q) = (w, s) ->
    r = w ++ rest s /\ forallb p w = true /\ stops p (rest s) /\ s = st_at (rest s) (pos_after q w).
  Proof.
    revert q w s; induction r as [|c r IH]; intros q w s H; cbn [span] in H.
    - inv H; repeat split; cbn; destruct q; reflexivity.
    - destruct (p c) eqn:E.
      + destruct (span p r (step_line c (fst q)) (step_col c (snd q))) as [w1 s1] eqn:E1.
        inv H.
        change (step_line c (fst q)) with (fst (step_line c (fst q), step_col c (snd q))) in E1.
        change (step_col c (snd q)) with (snd (step_line c (fst q), step_col c (snd q))) in E1 at 2.
        rewrite step_pos, <- surjective_pairing in E1.
        apply IH in E1 as (A & B & C & D).
        repeat split; auto; [cbn [app]; congruence | cbn; rewrite E; exact B].
      + inv H; repeat split; cbn; auto; destruct q; reflexivity.
  Qed.

  Lemma skip_whitespace_inv s :
    exists w, rest s = w ++ rest (skip_whitespace s) /\ blank w /\
      stops isspace (rest (skip_whitespace s)) /\
      skip_whitespace s = st_at (rest (skip_whitespace s)) (pos_after (line s, col s) w).
  Proof.
    unfold skip_whitespace.
    destruct (span isspace (rest s) (line s) (col s)) as [w s'] eqn:E; cbn [snd].
    change (line s) with (fst (line s, col s)) in E.
    change (col s) with (snd (line s, col s)) in E at 2.
    apply span_inv in E as (A & B & C & D); exists w; auto.
  Qed.

  Lemma to_newline_inv r q s :
    to_newline r (fst q) (snd q) = Ok s ->
    exists b r', r = b ++ nl :: r' /\ ~ In nl b /\ s = st_at (nl :: r') (pos_after q b).
  Proof.
    revert q s; induction r as [|c r IH]; intros q s H; cbn [to_newline] in H; [discriminate|].
    destruct (ceq_spec c nl) as [->|E].
    - inv H; exists [], r; repeat split; auto.
    - change (step_line c (fst q)) with (fst (step_line c (fst q), step_col c (snd q))) in H.
      change (step_col c (snd q)) with (snd (step_line c (fst q), step_col c (snd q))) in H at 2.
      rewrite step_pos, <- surjective_pairing in H.
      apply IH in H as (b & r' & -> & Hb & ->).
      exists (c :: b), r'; repeat split; auto.
      intros [H|H]; [congruence|contradiction].
  Qed.

  Lemma skip_single_inv s s' :
    is_singleline_comment g s = true -> skip_singleline_comment s = Ok s' ->
    exists c, line_comment c /\ rest s = c ++ rest s' /\ stops isspace (rest s') /\
      s' = st_at (rest s') (pos_after (line s, col s) c).
  Proof.
    intros Ht H; unfold skip_singleline_comment in H.
    apply bind_ok in H as (s1 & H1 & H2); inv H2.
    change (line s) with (fst (line s, col s)) in H1.
    change (col s) with (snd (line s, col s)) in H1 at 2.
    apply to_newline_inv in H1 as (b & r' & Er & Hb & ->).
    destruct (skip_whitespace_inv (st_at (nl :: r') (pos_after (line s, col s) b))) as (w & A & B & C & D).
    set (s2 := skip_whitespace _) in *.
    cbn [rest line col st_at] in A, D.
    destruct w as [|c w]; [cbn in A; rewrite <- A in C; discriminate|].
    cbn [app] in A; injection A as Ec A.
    exists (b ++ c :: w); split; [|split; [|split]].
    - unfold is_singleline_comment in Ht; apply andb_prop in Ht as [_ Ht].
      subst c; unfold cur, peek in Ht; rewrite Er in Ht.
      assert (Bw : blank w) by (unfold blank in B; cbn [forallb] in B; apply andb_prop in B; tauto).
      destruct b as [|d b]; cbn [app is_char hd_error] in Ht; [discriminate|].
      apply orb_true_iff in Ht as [Ht|Ht].
      + destruct (ceq_spec d "%") as [->|]; [|discriminate].
        constructor; auto; intros H; apply Hb; right; exact H.
      + apply andb_prop in Ht as [H1 H2].
        destruct (ceq_spec d "/") as [->|]; [|discriminate].
        destruct b as [|e b]; cbn in H2; [discriminate|].
        destruct (ceq_spec e "/") as [->|]; [|discriminate].
        constructor; auto; intros H; apply Hb; right; right; exact H.
    - rewrite Er, A, <- app_assoc, Ec; reflexivity.
    - exact C.
    - rewrite D at 1; rewrite <- surjective_pairing, <- pos_after_app; reflexivity.
  Qed.

  Lemma skip_singles_inv fuel s s' :
    stops isspace (rest s) ->
    skip_while fuel (is_singleline_comment g) skip_singleline_comment s = Ok s' ->
    exists cs, Forall line_comment cs /\ rest s = concat cs ++ rest s' /\ stops isspace (rest s') /\
      is_singleline_comment g s' = false /\ (is_dynare g = false -> cs = []) /\
      s' = st_at (rest s') (pos_after (line s, col s) (concat cs)).
  Proof.
    revert s; induction fuel as [|f IH]; intros s Hs H; cbn [skip_while] in H; [discriminate|].
    destruct (is_singleline_comment g s) eqn:Ht.
    - apply bind_ok in H as (s1 & H1 & H2).
      destruct (skip_single_inv _ _ Ht H1) as (c & Hc & Er & Hst & Es).
      destruct (IH s1 Hst H2) as (cs & A & B & C & D & E & F).
      exists (c :: cs); repeat split; auto.
      + rewrite Er, B; cbn [concat]; rewrite app_assoc; reflexivity.
      + intros Hg; unfold is_singleline_comment in Ht; rewrite Hg in Ht; discriminate.
      + rewrite F at 1; cbn [concat]; rewrite pos_after_app, Es; cbn [line col st_at].
        rewrite <- surjective_pairing; reflexivity.
    - inv H; exists []; repeat split; auto; apply st_eta.
  Qed.

  Lemma lex_sym_inv c r y n :
    lex_sym g c (hd_error r) = Some (y, n) ->
    valid_numchar c = false -> (is_dynare g = true -> ceq c "%" = false) ->
    (is_dynare g = true -> ceq c "/" = true -> is_char (hd_error r) "/" = false /\ is_char (hd_error r) "*" = false) ->
    exists w r', c :: r = w ++ r' /\ sym_text g y = w /\ List.length w = n /\
      writable g y = true /\ follows N g (TSym y) r' /\
      (n = 1 \/ (n = 2)) /\ ~ In nl w.
  Proof.
    intros H Hn Hp Hd; unfold lex_sym in H.
    repeat match type of H with
    | (if ?b then _ else _) = _ => destruct b eqn:?
    end; try discriminate H; inv H;
    repeat match goal with
    | E : _ && _ = true |- _ => apply andb_prop in E as [? ?]
    | E : ceq c ?d = true |- _ => destruct (ceq_spec c d) as [->|]; [clear E|discriminate E]
    end;
    try discriminate Hn;
    try (match goal with E : is_char (hd_error r) ?d = true |- _ =>
           destruct r as [|d0 r]; [discriminate E|]; cbn [hd_error is_char] in E;
           destruct (ceq_spec d0 d) as [->|]; [clear E|discriminate E] end);
    try (match goal with E : negb (exp_python g) = true |- _ =>
           destruct g; try discriminate E end);
    try (match goal with E : exp_python g = true |- _ =>
           destruct g; try discriminate E end);
    repeat match goal with
    | E : ceq ?c ?d && is_char ?o ?e = false |- _ =>
        change (ceq c d) with true in E; cbn [andb] in E
    end;
    try (eexists [_], r; split; [reflexivity|]; split; [reflexivity|]; split; [reflexivity|];
         split; [destruct g; try reflexivity; specialize (Hp eq_refl); discriminate Hp|];
         split; [|split; [auto|intros [Hx|[]]; discriminate Hx]];
         destruct r as [|d0 r]; cbn [follows sticks hd_error is_char] in *; auto; fail);
    try (eexists [_; _], r; split; [reflexivity|]; split; [reflexivity|]; split; [reflexivity|];
         split; [destruct g; try reflexivity; specialize (Hp eq_refl); discriminate Hp|];
         split; [|split; [auto|intros [Hx|[Hx|[]]]; discriminate Hx]];
         destruct r as [|d0 r]; cbn [follows sticks hd_error is_char] in *; auto; fail).
    - exists ["*"%char], r; do 3 (split; [reflexivity|]).
      split; [destruct g; reflexivity|]; split; [|split; [auto|intros [Hx|[]]; discriminate Hx]].
      destruct r as [|d0 r]; cbn [follows sticks]; auto; destruct g; auto.
    - exists ["/"%char], r; do 3 (split; [reflexivity|]).
      split; [destruct g; reflexivity|]; split; [|split; [auto|intros [Hx|[]]; discriminate Hx]].
      destruct r as [|d0 r]; cbn [follows sticks]; auto; destruct g; auto.
      cbn [hd_error is_char] in *; destruct (Hd eq_refl eq_refl) as [-> ->]; reflexivity.
  Qed.

  Lemma advance_chars w r q :
    List.length w = 1 \/ List.length w = 2 -> ~ In nl w ->
    advance (List.length w) (st_at (w ++ r) q) = st_at r (pos_after q w).
  Proof.
    intros Hl Hn.
    destruct w as [|c [|d [|e w]]]; cbn [List.length] in Hl; try lia; cbn [List.length app].
    - apply advance_1.
    - assert (A : forall x, In x [c; d] -> ceq x nl = false).
      { intros x Hx; destruct (ceq_spec x nl) as [->|]; [contradiction|reflexivity]. }
      apply advance_2; apply A; cbn; auto.
  Qed.

  Lemma lex_str_body_inv q r p b s :
    lex_str_body q r (fst p) (snd p) = Ok (b, s) ->
    exists r', r = b ++ q :: r' /\ ~ In q b /\ s = st_at (q :: r') (pos_after p b).
  Proof.
    revert p b s; induction r as [|c r IH]; intros p b s H; cbn [lex_str_body] in H; [discriminate|].
    destruct (ceq_spec c q) as [->|E].
    - inv H; exists r; repeat split; auto.
    - apply bind_ok in H as ([b1 s1] & H1 & H2); inv H2.
      change (step_line c (fst p)) with (fst (step_line c (fst p), step_col c (snd p))) in H1.
      change (step_col c (snd p)) with (snd (step_line c (fst p), step_col c (snd p))) in H1 at 2.
      rewrite step_pos, <- surjective_pairing in H1.
      apply IH in H1 as (r' & -> & Hb & ->); exists r'; repeat split; auto.
      cbn [fst]; intros [H|H]; [congruence|contradiction].
  Qed.

  Lemma lex_string_inv q r p lt s' :
    q = squote \/ q = dquote ->
    lex_string N q (st_at (q :: r) p) = Ok (lt, s') ->
    exists w, writes (tk lt) w /\ q :: r = w ++ rest s' /\ follows N g (tk lt) (rest s') /\
      lt = at_pos N (tk lt) (pos_after p w) /\ s' = st_at (rest s') (pos_after p w).
  Proof.
    intros Hq H; unfold lex_string in H; rewrite advance_1 in H.
    apply bind_ok in H as ([b s1] & H1 & H2); inv H2.
    unfold st_at in H1; cbn [rest line col] in H1.
    apply lex_str_body_inv in H1 as (r' & -> & Hb & ->).
    cbn [fst snd tk]; rewrite advance_1; cbn [rest line col st_at].
    exists (q :: b ++ [q]); split; [constructor; auto|].
    change (q :: b ++ [q]) with ([q] ++ b ++ [q]); rewrite !pos_after_app.
    split; [cbn [app]; rewrite <- app_assoc; reflexivity|].
    split; [destruct r'; cbn; auto | split; reflexivity].
  Qed.

  Lemma token_at_inv c r p lt s' :
    isspace c = false -> no_comment g (c :: r) ->
    token_at (st_at (c :: r) p) = Ok (lt, s') ->
    exists w, writes (tk lt) w /\ c :: r = w ++ rest s' /\ follows N g (tk lt) (rest s') /\
      lt = at_pos N (tk lt) (pos_after p w) /\ s' = st_at (rest s') (pos_after p w).
  Proof.
    intros Hsp [Hc1 Hc2] H; unfold Lexer.token_at in H; unfold st_at at 1 in H; cbn [rest] in H.
    destruct (valid_begchar g c) eqn:Hb.
    { apply (f_equal (fun x => match x with Ok y => y | Err _ => (lt, s') end)) in H; cbn beta iota in H.
      unfold lex_id in H; cbn [rest line col st_at] in H.
      destruct (span valid_varchar (c :: r) (fst p) (snd p)) as [w s1] eqn:E.
      apply span_inv in E as (A & B & C & D).
      assert (X1 := f_equal fst H); assert (X2 := f_equal snd H); cbn [fst snd] in X1, X2; subst lt s'; clear H.
      revert A C D; generalize (rest s1); intros r1 A C ->; cbn [rest line col st_at tk].
      rewrite (forallb_ext _ ident_char) in B by apply ident_char_varchar.
      destruct w as [|c' w].
      { exfalso; cbn in A; rewrite <- A in C; cbn in C.
        pose proof (ascii_all (fun c => negb (isalpha c || ceq c "_") || valid_varchar c)
          ltac:(vm_compute; reflexivity) c) as X; cbn beta in X.
        unfold valid_begchar in Hb; rewrite C in X.
        destruct (isalpha c), (ceq c "_"); try discriminate X.
        rewrite andb_false_r in Hb; discriminate Hb. }
      cbn [app] in A; injection A as <- A.
      exists (c :: w).
      assert (Hst : ident_start g c = true).
      { unfold valid_begchar in Hb; unfold ident_start, letter; destruct g; cbn in Hb;
          rewrite ?orb_false_r in Hb; exact Hb. }
      assert (Hfol : stops ident_char r1).
      { destruct r1; cbn in *; auto; rewrite <- ident_char_varchar; exact C. }
      split; [|split; [|split; [|split]]]; auto.
      - destruct (mem (str (c :: w)) (kws g)) eqn:M1.
        + apply mem_In in M1.
          rewrite <- (list_ascii_of_string_of_list_ascii (c :: w)) at 2; constructor; exact M1.
        + destruct (mem (str (c :: w)) reserved_funcs) eqn:M2.
          * apply mem_In in M2.
            rewrite <- (list_ascii_of_string_of_list_ascii (c :: w)) at 2; constructor; exact M2.
          * apply mem_false in M1; apply mem_false in M2; constructor; auto.
            cbn [forallb] in B; apply andb_prop in B; tauto.
      - cbn [app]; congruence.
      - destruct (mem (str (c :: w)) (kws g)); [exact Hfol|].
        destruct (mem (str (c :: w)) reserved_funcs); exact Hfol. }
    destruct (valid_numchar c) eqn:Hn.
    { unfold lex_number in H; cbn [rest line col st_at] in H.
      destruct (span valid_numchar (c :: r) (fst p) (snd p)) as [w s1] eqn:E.
      apply span_inv in E as (A & B & C & D).
      destruct (float_of w) as [n|] eqn:Ef; inv H.
      destruct w as [|c' w].
      { exfalso; cbn in A; rewrite <- A in C; cbn in C; congruence. }
      cbn [app] in A; injection A as <- A.
      revert A C D; generalize (rest s'); intros r1 A C ->.
      exists (c :: w); cbn [rest line col st_at tk].
      split; [constructor; auto|].
      split; [cbn [app]; congruence|].
      split; [exact C|]; split; reflexivity. }
    destruct (ceq_spec c squote) as [->|Hsq].
    { apply lex_string_inv in H; auto. }
    destruct (ceq_spec c dquote) as [->|Hdq].
    { apply lex_string_inv in H; auto. }
    change (peek (st_at (c :: r) p)) with (hd_error r) in H.
    destruct (lex_sym g c (hd_error r)) as [[y n]|] eqn:Es; [|discriminate].
    destruct (lex_sym_inv c r y n Es Hn) as (w & r' & A & B & C & D & E & F & G).
    - intros Hg; unfold is_singleline_comment in Hc1; rewrite Hg in Hc1; cbn [andb] in Hc1.
      apply orb_false_iff in Hc1 as [X _]; exact X.
    - intros Hg Hd; unfold is_singleline_comment in Hc1; unfold is_multiline_comment in Hc2.
      rewrite Hg in Hc1, Hc2; cbn [andb] in Hc1, Hc2.
      apply orb_false_iff in Hc1 as [_ X].
      unfold cur, peek in X, Hc2; cbn [rest hd_error is_char st_at] in X, Hc2.
      rewrite Hd in X, Hc2; cbn [andb] in X, Hc2; split; [exact X|exact Hc2].
    - rewrite A, <- C, advance_chars in H; [|rewrite C; exact F|exact G].
      inv H; cbn [tk rest line col st_at].
      exists (sym_text g y); split; [constructor; exact D|].
      split; [exact A|]; split; [exact E|]; split; reflexivity.
  Qed.

  (** Skipping comments in a text without [/*]. *)
  Lemma skip_comments_inv s s' :
    (is_dynare g = true -> adjacent "/" "*" (rest s) = false) ->
    stops isspace (rest s) -> skip_comments g s = Ok s' ->
    exists cs, Forall line_comment cs /\ rest s = concat cs ++ rest s' /\ stops isspace (rest s') /\
      no_comment g (rest s') /\ (is_dynare g = false -> cs = []) /\
      s' = st_at (rest s') (pos_after (line s, col s) (concat cs)).
  Proof.
    intros Hadj Hs H; unfold skip_comments in H.
    apply bind_ok in H as (s1 & H1 & H2).
    destruct (skip_singles_inv _ _ _ Hs H1) as (cs & A & B & C & D & E & F).
    assert (M : is_multiline_comment g s1 = false).
    { unfold is_multiline_comment; destruct (is_dynare g); [|reflexivity]; cbn [andb].
      specialize (Hadj eq_refl); rewrite B in Hadj; apply adjacent_app_r in Hadj.
      unfold cur, peek; destruct (rest s1) as [|c [|d r]]; cbn [hd_error nth_error is_char]; auto.
      - apply andb_false_r.
      - cbn [adjacent] in Hadj; apply orb_false_iff in Hadj as [X _]; exact X. }
    cbn [skip_while] in H2; rewrite M in H2; inv H2.
    exists cs; repeat split; auto.
  Qed.

  Lemma next_token_inv s lt s' :
    (is_dynare g = true -> adjacent "/" "*" (rest s) = false) ->
    rest s <> [] -> next_token s = Ok (lt, s') ->
    exists lay, layout g lay /\
      ((rest s = lay /\ lay <> [] /\ lt = at_pos N TEof (pos_after (line s, col s) lay) /\
        s' = st_at [] (pos_after (line s, col s) lay)) \/
       (exists w, writes (tk lt) w /\ rest s = lay ++ w ++ rest s' /\ follows N g (tk lt) (rest s') /\
        lt = at_pos N (tk lt) (pos_after (line s, col s) (lay ++ w)) /\
        s' = st_at (rest s') (pos_after (line s, col s) (lay ++ w)))).
  Proof.
    intros Hadj Hne H; unfold Lexer.next_token in H.
    destruct (rest s) as [|c0 r0] eqn:Er; [congruence|]; rewrite <- Er in *; clear Hne.
    destruct (skip_whitespace_inv s) as (w & A & B & C & D).
    set (s1 := skip_whitespace s) in *.
    destruct (rest s1) as [|c1 r1] eqn:E1.
    - inv H. exists (rest s).
      rewrite app_nil_r in A.
      split.
      + rewrite A; rewrite <- (app_nil_r w); apply (Layout g w [] []); auto.
      + left; rewrite D; cbn [line col st_at]; rewrite A.
        repeat split; auto; congruence.
    - rewrite <- E1 in *.
      apply bind_ok in H as (s2 & H1 & H2).
      destruct (skip_comments_inv s1 s2) as (cs & F & G & I & J & K & L); auto.
      { intros Hg; specialize (Hadj Hg); rewrite A in Hadj; apply adjacent_app_r in Hadj; exact Hadj. }
      assert (Hlay : layout g (w ++ concat cs)).
      { rewrite <- (app_nil_r (concat cs)); apply (Layout g w cs []); auto. }
      exists (w ++ concat cs); split; [exact Hlay|].
      assert (Hp : pos_after (line s, col s) (w ++ concat cs) = (line s2, col s2)).
      { rewrite pos_after_app, L; cbn [line col st_at].
        rewrite D; cbn [line col st_at]; rewrite <- !surjective_pairing; reflexivity. }
      destruct (rest s2) as [|c2 r2] eqn:E2.
      + left. unfold Lexer.token_at in H2; rewrite E2 in H2; injection H2 as <- <-.
        rewrite Hp; split; [|split; [|split]]; [| |reflexivity|].
        * rewrite A, G, app_nil_r; reflexivity.
        * intros X; rewrite G, app_nil_r in A; rewrite X in A; congruence.
        * rewrite (st_eta s2), E2; reflexivity.
      + right. rewrite (st_eta s2), E2 in H2.
        destruct (token_at_inv c2 r2 _ _ _ I J H2) as (w' & P1 & P2 & P3 & P4 & P5).
        exists w'; rewrite pos_after_app, Hp.
        split; [exact P1|]; split; [|split; [exact P3|split; [exact P4|exact P5]]].
        rewrite A, G, <- app_assoc, P2; reflexivity.
  Qed.

  Lemma tokenize_loop_inv fuel s ts :
    (is_dynare g = true -> adjacent "/" "*" (rest s) = false) ->
    tokenize_loop fuel s = Ok ts -> spells (line s, col s) ts (rest s).
  Proof.
    revert s ts; induction fuel as [|f IH]; intros s ts Hadj H; cbn [Lexer.tokenize_loop] in H.
    - destruct (rest s) eqn:E; [inv H; constructor|discriminate].
    - destruct (rest s) as [|c0 r0] eqn:E; [inv H; constructor|]; rewrite <- E in *.
      apply bind_ok in H as ([lt s1] & H1 & H); apply bind_ok in H as (more & H2 & H); inv H.
      cbn [fst snd] in *.
      assert (Hne : rest s <> []) by congruence.
      destruct (next_token_inv s lt s1 Hadj Hne H1) as (lay & Hl & [(A & B & C & D)|(w & A & B & C & D & F)]).
      + rewrite A, C. subst s1.
        assert (Em : more = [at_pos N TEof (pos_after (line s, col s) lay)]).
        { destruct f; cbn [Lexer.tokenize_loop st_at rest] in H2; inv H2; reflexivity. }
        rewrite Em; constructor; auto.
      + rewrite B, D. constructor; auto.
        apply IH in H2.
        * rewrite F in H2; cbn [line col st_at rest] in H2; rewrite <- surjective_pairing in H2; exact H2.
        * intros Hg; specialize (Hadj Hg); rewrite B in Hadj.
          do 2 apply adjacent_app_r in Hadj; exact Hadj.
  Qed.

  (** Tokenising is exactly the specification on texts without [/*]. *)
  Theorem tokenize_iff t ts :
    (is_dynare g = true -> adjacent "/" "*" t = false) ->
    (tokenize t = Ok ts <-> t <> [] /\ spells (1, 0) ts t).
  Proof.
    intros Hadj; split.
    - intros H; unfold Lexer.tokenize in H; destruct t as [|c t]; [discriminate|].
      split; [discriminate|].
      apply tokenize_loop_inv in H; auto.
    - intros [Hne H]; apply tokenize_spells; auto.
  Qed.

  (** ** Termination *)
  Lemma advance_length n s : List.length (rest (advance n s)) = List.length (rest s) - n.
  Proof.
    unfold advance; destruct (rest s) as [|c r] eqn:E; [cbn; lia|].
    rewrite <- E; destruct (ceq c nl); cbn [rest]; apply skipn_length.
  Qed.

  Lemma span_length p r l k : List.length (rest (snd (span p r l k))) <= List.length r.
  Proof.
    revert l k; induction r as [|c r IH]; intros l k; cbn [span]; [cbn; lia|].
    destruct (p c); [|cbn; lia].
    specialize (IH (step_line c l) (step_col c k)).
    destruct (span p r (step_line c l) (step_col c k)); cbn in *; lia.
  Qed.

  Lemma span_length_lt p r l k :
    (exists c r', r = c :: r' /\ p c = true) ->
    List.length (rest (snd (span p r l k))) < List.length r.
  Proof.
    intros (c & r' & -> & Hp); cbn [span]; rewrite Hp.
    pose proof (span_length p r' (step_line c l) (step_col c k)).
    destruct (span p r' (step_line c l) (step_col c k)); cbn in *; lia.
  Qed.

  Lemma to_newline_length r l k s : to_newline r l k = Ok s ->
    List.length (rest s) <= List.length r /\ exists r', rest s = nl :: r'.
  Proof.
    revert l k; induction r as [|c r IH]; intros l k H; cbn [to_newline] in H; [discriminate|].
    destruct (ceq_spec c nl) as [->|].
    - inv H; cbn; eauto.
    - apply IH in H as [H1 H2]; cbn; split; [lia|exact H2].
  Qed.

  Lemma to_comment_end_length r l k s : to_comment_end r l k = Ok s ->
    List.length (rest s) <= List.length r.
  Proof.
    revert l k; induction r as [|c r IH]; intros l k H; cbn [to_comment_end] in H; [discriminate|].
    destruct (_ || _); [inv H; cbn; lia|].
    apply IH in H; cbn; lia.
  Qed.

  Lemma skip_single_length s s' :
    skip_singleline_comment s = Ok s' -> List.length (rest s') < List.length (rest s).
  Proof.
    unfold skip_singleline_comment; intros H; apply bind_ok in H as (s1 & H1 & H2); inv H2.
    apply to_newline_length in H1 as [H1 [r' H2]].
    unfold skip_whitespace.
    pose proof (span_length_lt isspace (rest s1) (line s1) (col s1)) as X.
    assert (exists c r', rest s1 = c :: r' /\ isspace c = true) as Y by (exists nl, r'; auto).
    specialize (X Y); lia.
  Qed.

  Lemma skip_multi_length s s' :
    is_multiline_comment g s = true ->
    skip_multiline_comment s = Ok s' -> List.length (rest s') < List.length (rest s).
  Proof.
    intros Ht; unfold skip_multiline_comment; intros H; apply bind_ok in H as (s1 & H1 & H2); inv H2.
    apply to_comment_end_length in H1.
    rewrite advance_length in H1.
    unfold skip_whitespace.
    pose proof (span_length isspace (rest (advance 2 s1)) (line (advance 2 s1)) (col (advance 2 s1))).
    rewrite advance_length in H.
    unfold is_multiline_comment, cur in Ht.
    destruct (rest s) as [|c r] eqn:E; [cbn in Ht; rewrite andb_false_r in Ht; discriminate|].
    cbn [List.length] in *; lia.
  Qed.

  Lemma skip_while_length fuel test skip s s' :
    (forall s s', test s = true -> skip s = Ok s' -> List.length (rest s') < List.length (rest s)) ->
    skip_while fuel test skip s = Ok s' -> List.length (rest s') <= List.length (rest s).
  Proof.
    intros Hs; revert s; induction fuel as [|f IH]; intros s H; cbn [skip_while] in H; [discriminate|].
    destruct (test s) eqn:Ht; [|inv H; lia].
    apply bind_ok in H as (s1 & H1 & H2); apply Hs in H1; auto; apply IH in H2; lia.
  Qed.

  Lemma skip_while_fuel fuel test skip s :
    (forall s s', test s = true -> skip s = Ok s' -> List.length (rest s') < List.length (rest s)) ->
    (forall s, skip s <> Err OutOfFuel) ->
    List.length (rest s) < fuel ->
    skip_while fuel test skip s <> Err OutOfFuel.
  Proof.
    intros Hs Hn; revert s; induction fuel as [|f IH]; intros s Hf; cbn [skip_while]; [lia|].
    destruct (test s) eqn:Ht; [|discriminate].
    destruct (skip s) as [s1|e] eqn:E; cbn [bind].
    - apply IH; apply Hs in E; auto; lia.
    - intros X; injection X as ->; eapply Hn; eauto.
  Qed.

  Lemma to_newline_noof r l k : to_newline r l k <> Err OutOfFuel.
  Proof.
    revert l k; induction r as [|c r IH]; intros l k; cbn [to_newline]; [discriminate|].
    destruct (ceq c nl); [discriminate|apply IH].
  Qed.
  Lemma to_comment_end_noof r l k : to_comment_end r l k <> Err OutOfFuel.
  Proof.
    revert l k; induction r as [|c r IH]; intros l k; cbn [to_comment_end]; [discriminate|].
    destruct (_ || _); [discriminate|apply IH].
  Qed.
  Lemma lex_str_body_noof q r l k : lex_str_body q r l k <> Err OutOfFuel.
  Proof.
    revert l k; induction r as [|c r IH]; intros l k; cbn [lex_str_body]; [discriminate|].
    destruct (ceq c q); [discriminate|].
    destruct (lex_str_body q r _ _) eqn:E; cbn [bind]; [discriminate|].
    intros X; injection X as ->; exact (IH _ _ E).
  Qed.

  Lemma skip_comments_noof s : skip_comments g s <> Err OutOfFuel.
  Proof.
    unfold skip_comments.
    destruct (skip_while _ (is_singleline_comment g) _ s) as [s1|e] eqn:E; cbn [bind].
    - apply skip_while_fuel; [| |lia].
      + intros; eapply skip_multi_length; eauto.
      + intros s0; unfold skip_multiline_comment.
        destruct (to_comment_end _ _ _) eqn:E1; cbn [bind]; [discriminate|].
        intros X; injection X as ->; exact (to_comment_end_noof _ _ _ E1).
    - rewrite <- E; apply skip_while_fuel; [| |lia].
      + intros; eapply skip_single_length; eauto.
      + intros s0; unfold skip_singleline_comment.
        destruct (to_newline _ _ _) eqn:E1; cbn [bind]; [discriminate|].
        intros X; injection X as ->; exact (to_newline_noof _ _ _ E1).
  Qed.

  Lemma skip_comments_length s s' : skip_comments g s = Ok s' ->
    List.length (rest s') <= List.length (rest s).
  Proof.
    unfold skip_comments; intros H; apply bind_ok in H as (s1 & H1 & H2).
    apply skip_while_length in H1; [|intros; eapply skip_single_length; eauto].
    apply skip_while_length in H2; [lia|intros; eapply skip_multi_length; eauto].
  Qed.

  Lemma token_at_noof s : token_at s <> Err OutOfFuel.
  Proof.
    unfold Lexer.token_at; destruct (rest s) as [|c r]; [discriminate|].
    destruct (valid_begchar g c); [discriminate|].
    destruct (valid_numchar c).
    { unfold lex_number; destruct (span _ _ _ _) as [w s1]; destruct (float_of w); discriminate. }
    assert (A : forall q, lex_string N q s <> Err OutOfFuel).
    { intros q; unfold lex_string; destruct (lex_str_body _ _ _ _) eqn:E; cbn [bind]; [discriminate|].
      intros X; injection X as ->; exact (lex_str_body_noof _ _ _ _ E). }
    destruct (ceq c squote); [apply A|]; destruct (ceq c dquote); [apply A|].
    destruct (lex_sym g c (peek s)) as [[y n]|]; discriminate.
  Qed.

  Lemma lex_sym_pos c pk y n : lex_sym g c pk = Some (y, n) -> 1 <= n.
  Proof.
    unfold lex_sym; intros H.
    repeat match type of H with (if ?b then _ else _) = _ => destruct b end;
      try discriminate H; injection H as _ <-; lia.
  Qed.

  Lemma begchar_varchar c : valid_begchar g c = true -> valid_varchar c = true.
  Proof.
    pose proof (ascii_all (fun c => negb (isalpha c || ceq c "_") || valid_varchar c)
      ltac:(vm_compute; reflexivity) c) as X; cbn beta in X.
    unfold valid_begchar; intros Hb; destruct (isalpha c), (ceq c "_"), (valid_varchar c);
      try discriminate X; auto.
    rewrite andb_false_r in Hb; discriminate.
  Qed.

  Lemma lex_str_body_length q r l k w s :
    lex_str_body q r l k = Ok (w, s) -> List.length (rest s) <= List.length r.
  Proof.
    revert l k w; induction r as [|c r IH]; intros l k w H; cbn [lex_str_body] in H; [discriminate|].
    destruct (ceq c q); [inv H; cbn; lia|].
    apply bind_ok in H as ([w1 s1] & H1 & H2); inv H2; apply IH in H1; cbn in *; lia.
  Qed.

  Lemma token_at_length s lt s' : token_at s = Ok (lt, s') ->
    rest s = [] /\ rest s' = [] \/ List.length (rest s') < List.length (rest s).
  Proof.
    unfold Lexer.token_at; destruct (rest s) as [|c r] eqn:E; intros H; [inv H; auto|right].
    destruct (valid_begchar g c) eqn:B1.
    { injection H as H; unfold lex_id in H.
      pose proof (span_length_lt valid_varchar (rest s) (line s) (col s)) as X.
      rewrite E in X, H. specialize (X (ex_intro _ c (ex_intro _ r (conj eq_refl (begchar_varchar c B1))))).
      destruct (span valid_varchar (c :: r) (line s) (col s)) as [w s1].
      injection H as _ <-; exact X. }
    destruct (valid_numchar c) eqn:B2.
    { unfold lex_number in H; rewrite E in H.
      pose proof (span_length_lt valid_numchar (c :: r) (line s) (col s)
        (ex_intro _ c (ex_intro _ r (conj eq_refl B2)))) as X.
      destruct (span valid_numchar (c :: r) (line s) (col s)) as [w s1].
      destruct (float_of w); [|discriminate]; inv H; exact X. }
    assert (A : forall q, lex_string N q s = Ok (lt, s') -> List.length (rest s') < List.length (c :: r)).
    { intros q Hq; unfold lex_string in Hq.
      apply bind_ok in Hq as ([w s1] & H1 & H2); inv H2.
      apply lex_str_body_length in H1.
      rewrite advance_length in *; cbn [snd] in *; rewrite E in H1; cbn [List.length] in *; lia. }
    destruct (ceq c squote); [eauto|]; destruct (ceq c dquote); [eauto|].
    destruct (lex_sym g c (peek s)) as [[y n]|] eqn:Ey; inv H.
    apply lex_sym_pos in Ey; rewrite advance_length, E; cbn [List.length]; lia.
  Qed.

  Lemma next_token_length s lt s' : next_token s = Ok (lt, s') -> rest s <> [] ->
    rest s' = [] \/ List.length (rest s') < List.length (rest s).
  Proof.
    unfold Lexer.next_token; intros H Hne.
    destruct (rest s) as [|c r] eqn:E; [congruence|]; rewrite <- E.
    pose proof (span_length isspace (rest s) (line s) (col s)) as X.
    change (snd (span isspace (rest s) (line s) (col s))) with (skip_whitespace s) in X.
    destruct (rest (skip_whitespace s)) as [|c1 r1] eqn:E1; [inv H; auto|].
    rewrite <- E1 in *.
    apply bind_ok in H as (s2 & H1 & H2); apply skip_comments_length in H1.
    apply token_at_length in H2 as [[_ ?]|?]; [auto|right; lia].
  Qed.

  Lemma next_token_noof s : next_token s <> Err OutOfFuel.
  Proof.
    unfold Lexer.next_token; destruct (rest s); [discriminate|].
    destruct (rest (skip_whitespace s)); [discriminate|].
    destruct (skip_comments g (skip_whitespace s)) eqn:E; cbn [bind]; [apply token_at_noof|].
    intros X; injection X as ->; exact (skip_comments_noof _ E).
  Qed.

  Lemma tokenize_loop_noof fuel s :
    List.length (rest s) <= fuel -> tokenize_loop fuel s <> Err OutOfFuel.
  Proof.
    revert s; induction fuel as [|f IH]; intros s Hf; cbn [Lexer.tokenize_loop].
    - destruct (rest s); [discriminate|cbn in Hf; lia].
    - destruct (rest s) as [|c r] eqn:E; [discriminate|].
      destruct (next_token s) as [[lt s1]|e] eqn:En; cbn [bind fst snd].
      + pose proof (next_token_length _ _ _ En) as X; rewrite E in X.
        specialize (X ltac:(discriminate)).
        destruct (tokenize_loop f s1) eqn:E2; cbn [bind]; [discriminate|].
        intros Y; injection Y as ->; revert E2; apply IH; cbn [List.length] in *.
        destruct X as [X|X]; [rewrite X; cbn; lia|lia].
      + intros X; injection X as ->; exact (next_token_noof s En).
  Qed.

  (** The fuel of the model never runs out: whenever the code terminates the
      model gives its result, and otherwise it says [Hang]. *)
  Theorem tokenize_fuel_suffices t : tokenize t <> Err OutOfFuel.
  Proof.
    unfold Lexer.tokenize; destruct t as [|c t]; [discriminate|].
    apply tokenize_loop_noof; cbn; lia.
  Qed.

  Definition ends_nl (r : text) : Prop := r = [] \/ exists r', r = r' ++ [nl].

  Lemma ends_nl_suffix a b : ends_nl (a ++ b) -> ends_nl b.
  Proof.
    intros [H|[r' H]].
    - apply app_eq_nil in H as [_ ->]; left; reflexivity.
    - destruct b as [|c b] using rev_ind; [left; reflexivity|].
      rewrite app_assoc in H; apply app_inj_tail in H as [_ ->]; right; eauto.
  Qed.

  Lemma to_newline_nohang r l k : ends_nl r -> r <> [] -> to_newline r l k <> Err Hang.
  Proof.
    revert l k; induction r as [|c r IH]; intros l k He Hne; [congruence|]; cbn [to_newline].
    destruct (ceq_spec c nl) as [->|Hc]; [discriminate|].
    apply IH.
    - apply (ends_nl_suffix [c]); exact He.
    - intros ->; destruct He as [He|[r' He]]; [discriminate|].
      destruct r' as [|d r']; [injection He as He; contradiction|destruct r'; discriminate].
  Qed.

  Lemma skip_singles_nohang fuel s :
    ends_nl (rest s) ->
    skip_while fuel (is_singleline_comment g) skip_singleline_comment s <> Err Hang.
  Proof.
    revert s; induction fuel as [|f IH]; intros s He; cbn [skip_while]; [discriminate|].
    destruct (is_singleline_comment g s) eqn:Ht; [|discriminate].
    destruct (skip_singleline_comment s) as [s1|e] eqn:E; cbn [bind].
    - apply IH. destruct (skip_single_inv _ _ Ht E) as (c & _ & Er & _).
      rewrite Er in He; apply ends_nl_suffix in He; exact He.
    - intros X; injection X as ->; unfold skip_singleline_comment in E.
      destruct (to_newline (rest s) (line s) (col s)) eqn:E1; cbn [bind] in E; [discriminate|].
      injection E as ->; revert E1; apply to_newline_nohang; [exact He|].
      intros X; unfold is_singleline_comment, cur in Ht; rewrite X in Ht; cbn in Ht.
      rewrite andb_false_r in Ht; discriminate.
  Qed.

  Lemma lex_str_body_nohang q r l k : lex_str_body q r l k <> Err Hang.
  Proof.
    revert l k; induction r as [|c r IH]; intros l k; cbn [lex_str_body]; [discriminate|].
    destruct (ceq c q); [discriminate|].
    destruct (lex_str_body q r _ _) eqn:E; cbn [bind]; [discriminate|].
    intros X; injection X as ->; exact (IH _ _ E).
  Qed.

  Lemma token_at_nohang s : token_at s <> Err Hang.
  Proof.
    unfold Lexer.token_at; destruct (rest s) as [|c r]; [discriminate|].
    destruct (valid_begchar g c); [discriminate|].
    destruct (valid_numchar c).
    { unfold lex_number; destruct (span _ _ _ _) as [w s1]; destruct (float_of w); discriminate. }
    assert (A : forall q, lex_string N q s <> Err Hang).
    { intros q; unfold lex_string; destruct (lex_str_body _ _ _ _) eqn:E; cbn [bind]; [discriminate|].
      intros X; injection X as ->; exact (lex_str_body_nohang _ _ _ _ E). }
    destruct (ceq c squote); [apply A|]; destruct (ceq c dquote); [apply A|].
    destruct (lex_sym g c (peek s)) as [[y n]|]; discriminate.
  Qed.

  Lemma next_token_nohang s :
    (is_dynare g = true -> adjacent "/" "*" (rest s) = false /\ ends_nl (rest s)) ->
    next_token s <> Err Hang.
  Proof.
    intros Hg; unfold Lexer.next_token; destruct (rest s) as [|c0 r0] eqn:Er; [discriminate|].
    rewrite <- Er in *.
    destruct (skip_whitespace_inv s) as (w & A & B & C & D).
    set (s1 := skip_whitespace s) in *.
    destruct (rest s1) as [|c1 r1] eqn:E1; [discriminate|]; rewrite <- E1 in *.
    assert (Hg1 : is_dynare g = true -> adjacent "/" "*" (rest s1) = false /\ ends_nl (rest s1)).
    { intros H; destruct (Hg H) as [H1 H2]; rewrite A in H1, H2.
      split; [eapply adjacent_app_r; eauto | eapply ends_nl_suffix; eauto]. }
    destruct (skip_comments g s1) as [s2|e] eqn:E; cbn [bind]; [apply token_at_nohang|].
    intros X; injection X as ->; unfold skip_comments in E.
    destruct (is_dynare g) eqn:Dy.
    - destruct (Hg1 eq_refl) as [H1 H2].
      destruct (skip_while _ (is_singleline_comment g) _ s1) as [s2|e] eqn:E2; cbn [bind] in E.
      + destruct (skip_singles_inv _ _ _ C E2) as (cs & _ & G & _).
        rewrite G in H1; apply adjacent_app_r in H1.
        cbn [skip_while] in E.
        assert (M : is_multiline_comment g s2 = false).
        { unfold is_multiline_comment; rewrite Dy; cbn [andb].
          unfold cur, peek; destruct (rest s2) as [|c [|d r]]; cbn [hd_error nth_error is_char]; auto.
          - apply andb_false_r.
          - cbn [adjacent] in H1; apply orb_false_iff in H1 as [X _]; exact X. }
        rewrite M in E; discriminate.
      + injection E as ->; exact (skip_singles_nohang _ _ H2 E2).
    - cbn [skip_while] in E; unfold is_singleline_comment, is_multiline_comment in E.
      rewrite Dy in E; cbn [andb bind skip_while] in E. discriminate E.
  Qed.

  Lemma tokenize_loop_nohang fuel s :
    (is_dynare g = true -> adjacent "/" "*" (rest s) = false /\ ends_nl (rest s)) ->
    tokenize_loop fuel s <> Err Hang.
  Proof.
    revert s; induction fuel as [|f IH]; intros s Hg; cbn [Lexer.tokenize_loop];
      (destruct (rest s) as [|c r] eqn:E; [discriminate|]); [discriminate|]; rewrite <- E in *.
    destruct (next_token s) as [[lt s1]|e] eqn:En; cbn [bind fst snd].
    - destruct (tokenize_loop f s1) eqn:E2; cbn [bind]; [discriminate|].
      intros Y; injection Y as ->; revert E2; apply IH.
      intros Dy; destruct (Hg Dy) as [H1 H2].
      destruct (next_token_inv s lt s1) as (lay & _ & [(_ & _ & _ & ->)|(w & _ & Er & _)]); auto; [congruence| |].
      + split; [reflexivity|left; reflexivity].
      + rewrite Er in H1, H2; split.
        * do 2 apply adjacent_app_r in H1; exact H1.
        * do 2 apply ends_nl_suffix in H2; exact H2.
    - intros X; injection X as ->; revert En; apply next_token_nohang; exact Hg.
  Qed.

  Theorem tokenize_nohang t :
    (is_dynare g = true -> adjacent "/" "*" t = false /\ exists t', t = t' ++ [nl]) ->
    tokenize t <> Err Hang.
  Proof.
    intros H; unfold Lexer.tokenize; destruct t as [|c t]; [discriminate|].
    apply tokenize_loop_nohang; intros Dy; destruct (H Dy) as [H1 H2].
    split; [exact H1|right; exact H2].
  Qed.
End Proofs.
