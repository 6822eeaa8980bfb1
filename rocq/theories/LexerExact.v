From Verif Require Import Base Lexer LexerSpec LexerProofs LexerProofs2 LexerExactSpec.

Section Proofs.
  Variable N : Type.
  Variable float_of : text -> option N.
  Variable g : cfg.

  Notation tokenize := (tokenize N float_of g).
  Notation tokenize_loop := (tokenize_loop N float_of g).
  Notation next_token := (next_token N float_of g).
  Notation token_at := (token_at N float_of g).
  Notation writes := (writes N float_of g).
  Notation lays := (lays g).
  Notation reads := (reads N float_of g).
  Notation fails := (fails N float_of g).
  Notation bad := (bad N float_of g).
  Notation is_single := (is_singleline_comment g).
  Notation is_multi := (is_multiline_comment g).

  Lemma st_pos s : st_at (rest s) (line s, col s) = s.
  Proof. destruct s; reflexivity. Qed.

  (** ** The end of a multi-line comment *)
  Lemma to_comment_end_run b x r p :
    ~ In "*"%char b -> ~ In "/"%char (tl (b ++ [x])) ->
    (x = "*"%char \/ hd_error r = Some "/"%char) ->
    to_comment_end (b ++ x :: r) (fst p) (snd p) = Ok (st_at (x :: r) (pos_after p b)).
  Proof.
    revert p; induction b as [|c b IH]; intros p H1 H2 H3; cbn [app to_comment_end].
    - destruct H3 as [-> | H3]; [rewrite ceq_refl; reflexivity|].
      rewrite H3; cbn [is_char]; rewrite ceq_refl, orb_true_r; reflexivity.
    - destruct (ceq_spec c "*") as [->|E]; [exfalso; apply H1; left; reflexivity|].
      cbn [orb].
      assert (Hd : is_char (hd_error (b ++ x :: r)) "/" = false).
      { cbn [app tl] in H2; destruct b as [|d b]; cbn [app hd_error is_char] in *.
        - destruct (ceq_spec x "/") as [->|]; [exfalso; apply H2; left; reflexivity|reflexivity].
        - destruct (ceq_spec d "/") as [->|]; [exfalso; apply H2; left; reflexivity|reflexivity]. }
      rewrite Hd.
      change (step_line c (fst p)) with (fst (step_line c (fst p), step_col c (snd p))).
      change (step_col c (snd p)) with (snd (step_line c (fst p), step_col c (snd p))) at 2.
      rewrite step_pos, <- surjective_pairing, IH; [reflexivity| | |exact H3].
      + intros H; apply H1; right; exact H.
      + intros H; apply H2; cbn [app tl].
        destruct b as [|d b]; cbn [app tl] in *; [destruct H|right; exact H].
  Qed.

  Lemma to_comment_end_result r p :
    (goes_on r /\ to_comment_end r (fst p) (snd p) = Err Hang) \/
    (exists b x r', r = b ++ x :: r' /\ ~ In "*"%char b /\ ~ In "/"%char (tl (b ++ [x])) /\
       (x = "*"%char \/ hd_error r' = Some "/"%char)).
  Proof.
    revert p; induction r as [|c r IH]; intros p; cbn [to_comment_end].
    - left; split; [split; intros []|reflexivity].
    - destruct (ceq_spec c "*") as [->|E].
      { right; exists [], "*"%char, r; cbn; repeat split; auto. }
      destruct (is_char (hd_error r) "/") eqn:Ed.
      { right; exists [], c, r; cbn; repeat split; auto; right.
        destruct r as [|d r]; [discriminate|]; cbn [hd_error is_char] in *.
        destruct (ceq_spec d "/") as [->|]; [reflexivity|discriminate]. }
      cbn [orb].
      change (step_line c (fst p)) with (fst (step_line c (fst p), step_col c (snd p))).
      change (step_col c (snd p)) with (snd (step_line c (fst p), step_col c (snd p))) at 2.
      destruct (IH (step_line c (fst p), step_col c (snd p))) as [[[H1 H2] H3]|(b & x & r' & -> & H1 & H2 & H3)].
      + left; split; [|exact H3]; split.
        * intros [H|H]; [congruence|contradiction].
        * cbn [tl]; destruct r as [|d r]; [intros []|]; cbn [tl hd_error is_char] in *.
          intros [->|H]; [rewrite ceq_refl in Ed; discriminate|contradiction].
      + right; exists (c :: b), x, r'; split; [reflexivity|]; split; [|split; [|exact H3]].
        * intros [H|H]; [congruence|contradiction].
        * cbn [app tl].
          destruct b as [|d b]; cbn [app tl hd_error is_char] in *.
          -- intros [->|[]]; rewrite ceq_refl in Ed; discriminate.
          -- intros [->|H]; [rewrite ceq_refl in Ed; discriminate|contradiction].
  Qed.

  Lemma to_comment_end_goes_on r p :
    goes_on r -> to_comment_end r (fst p) (snd p) = Err Hang.
  Proof.
    intros [H1 H2].
    destruct (to_comment_end_result r p) as [[_ H]|(b & x & r' & -> & H3 & H4 & [-> | H5])]; [exact H| |].
    - exfalso; apply H1; apply in_or_app; right; left; reflexivity.
    - exfalso; apply H2; destruct r' as [|d r']; [discriminate|]; injection H5 as ->.
      destruct b as [|c b]; cbn [app tl]; [left; reflexivity|].
      apply in_or_app; right; right; left; reflexivity.
  Qed.

  (** Leaving the character that ends the body and the next one. *)
  Lemma advance_jump x y r p :
    List.length y = 1 \/ y ++ r = [] ->
    advance 2 (st_at (x :: y ++ r) p) = st_at r (jump p x).
  Proof.
    intros H; unfold advance, st_at, jump; cbn [rest line col].
    assert (E : skipn 2 (x :: y ++ r) = r).
    { destruct H as [H|H].
      - destruct y as [|d [|e y]]; cbn in H; try lia; reflexivity.
      - apply app_eq_nil in H as [-> ->]; reflexivity. }
    rewrite E; destruct (ceq x nl); cbn [fst snd]; f_equal; lia.
  Qed.

  Lemma skip_multi_run b x y w r p :
    ~ In "*"%char b -> ~ In "/"%char (tl (b ++ [x])) -> x = "*"%char \/ y = ["/"%char] ->
    List.length y = 1 \/ y ++ w ++ r = [] -> blank w -> stops isspace r ->
    skip_multiline_comment (st_at (opening ++ b ++ x :: y ++ w ++ r) p)
      = Ok (st_at r (pos_after (jump (pos_after p (opening ++ b)) x) w)).
  Proof.
    intros H1 H2 H3 H4 H5 H6; unfold skip_multiline_comment.
    unfold opening; cbn [app]; rewrite advance_2 by reflexivity.
    unfold st_at at 1 2 3; cbn [rest line col].
    rewrite to_comment_end_run; auto.
    - cbn [bind]; rewrite advance_jump by exact H4.
      rewrite skip_whitespace_app by assumption.
      change ("/"%char :: "*"%char :: b) with (["/"%char; "*"%char] ++ b); rewrite pos_after_app; reflexivity.
    - destruct H3 as [H3|H3]; [left; exact H3|right; rewrite H3; reflexivity].
  Qed.

  Lemma is_multi_opening r p : is_dynare g = true -> is_multi (st_at (opening ++ r) p) = true.
  Proof. intros Hg; unfold is_multiline_comment; rewrite Hg; reflexivity. Qed.

  Lemma is_multi_inv s : is_multi s = true ->
    is_dynare g = true /\ exists r, rest s = opening ++ r.
  Proof.
    unfold is_multiline_comment, cur, peek; intros H.
    apply andb_prop in H as [Hg H]; apply andb_prop in H as [H1 H2]; split; [exact Hg|].
    destruct (rest s) as [|c [|d r]]; cbn [hd_error nth_error is_char] in *; try discriminate.
    destruct (ceq_spec c "/") as [->|]; [|discriminate].
    destruct (ceq_spec d "*") as [->|]; [|discriminate].
    exists r; reflexivity.
  Qed.

  (** One multi-line comment: never ended, or ended and skipped. *)
  Lemma skip_multi_result r p :
    (goes_on r /\ skip_multiline_comment (st_at (opening ++ r) p) = Err Hang) \/
    (exists b x y w r', r = b ++ x :: y ++ w ++ r' /\
       ~ In "*"%char b /\ ~ In "/"%char (tl (b ++ [x])) /\ (x = "*"%char \/ y = ["/"%char]) /\
       (List.length y = 1 \/ y ++ w ++ r' = []) /\ blank w /\ stops isspace r' /\
       skip_multiline_comment (st_at (opening ++ r) p)
         = Ok (st_at r' (pos_after (jump (pos_after p (opening ++ b)) x) w))).
  Proof.
    destruct (to_comment_end_result r (pos_after p opening)) as [[H1 H2]|(b & x & r1 & -> & H1 & H2 & H3)].
    - left; split; [exact H1|].
      unfold skip_multiline_comment, opening; cbn [app]; rewrite advance_2 by reflexivity.
      unfold st_at; cbn [rest line col].
      fold opening; rewrite H2; reflexivity.
    - right.
      assert (Y : exists y r2, r1 = y ++ r2 /\ (x = "*"%char \/ y = ["/"%char]) /\
        (List.length y = 1 \/ y ++ r2 = [])).
      { destruct r1 as [|d r2].
        - exists [], []; split; [reflexivity|]; split; [|auto].
          destruct H3 as [H3|H3]; [auto|discriminate].
        - exists [d], r2; split; [reflexivity|]; split; [|auto].
          destruct H3 as [H3|H3]; [auto|injection H3 as ->; auto]. }
      destruct Y as (y & r2 & -> & Y1 & Y2).
      destruct (skip_whitespace_inv (st_at r2 (0, 0))) as (w & A & B & C & _).
      set (r' := rest (skip_whitespace (st_at r2 (0, 0)))) in *.
      cbn [rest st_at] in A.
      exists b, x, y, w, r'; rewrite A in *.
      split; [reflexivity|]; do 4 (split; [assumption|]); split; [exact B|]; split; [exact C|].
      apply skip_multi_run; assumption.
  Qed.

  (** ** Runs of comments *)
  Lemma multis_stops p bs r q : multis p bs r q -> stops isspace r -> stops isspace (bs ++ r).
  Proof. intros H Hr; inversion H; subst; [exact Hr|reflexivity]. Qed.

  Lemma multis_run p bs r q :
    multis p bs r q -> is_dynare g = true -> stops isspace r ->
    forall fuel, List.length bs < fuel ->
    exists f, skip_while fuel is_multi skip_multiline_comment (st_at (bs ++ r) p)
              = skip_while (S f) is_multi skip_multiline_comment (st_at r q).
  Proof.
    intros H Hg Hr; induction H as [p r|p b x y w bs r q H1 H2 H3 H4 H5 Hm IH]; intros fuel Hf.
    - destruct fuel as [|f]; [cbn in Hf; lia|]; exists f; reflexivity.
    - destruct fuel as [|fuel]; [lia|].
      assert (E : (opening ++ b ++ x :: y ++ w ++ bs) ++ r = opening ++ b ++ x :: y ++ w ++ bs ++ r).
      { rewrite <- !app_assoc; cbn [app]; rewrite <- !app_assoc; reflexivity. }
      destruct (IH Hr fuel) as [f Ef].
      { unfold opening in Hf; cbn [app] in Hf; cbn [List.length] in Hf.
        rewrite app_length in Hf; cbn [List.length] in Hf; rewrite !app_length in Hf; lia. }
      exists f; rewrite E; cbn [skip_while].
      rewrite is_multi_opening by exact Hg.
      rewrite skip_multi_run; [|assumption ..|eapply multis_stops; eauto].
      cbn [bind]; exact Ef.
  Qed.

  (** The loop over multi-line comments: it ends before something else, or in a
      comment that is never ended. *)
  Lemma multis_result fuel r p :
    List.length r < fuel -> stops isspace r ->
    exists bs r' q, r = bs ++ r' /\ multis p bs r' q /\ stops isspace r' /\
      (is_dynare g = false -> bs = []) /\
      ((is_multi (st_at r' q) = false /\
        skip_while fuel is_multi skip_multiline_comment (st_at r p) = Ok (st_at r' q)) \/
       (is_dynare g = true /\ exists b, r' = opening ++ b /\ goes_on b /\
        skip_while fuel is_multi skip_multiline_comment (st_at r p) = Err Hang)).
  Proof.
    revert r p; induction fuel as [|fuel IH]; intros r p Hf Hr; [lia|]; cbn [skip_while].
    destruct (is_multi (st_at r p)) eqn:Ht.
    - destruct (is_multi_inv _ Ht) as [Hg [r0 E]]; cbn [rest st_at] in E; subst r.
      destruct (skip_multi_result r0 p) as [[H1 H2]|(b & x & y & w & r1 & -> & H1 & H2 & H3 & H4 & H5 & H6 & H7)].
      + exists [], (opening ++ r0), p; split; [reflexivity|]; split; [constructor|].
        split; [exact Hr|]; split; [congruence|]; right; split; [exact Hg|].
        exists r0; rewrite H2; auto.
      + rewrite H7; cbn [bind].
        destruct (IH r1 (pos_after (jump (pos_after p (opening ++ b)) x) w)) as (bs & r' & q & -> & A & B & C & D).
        { unfold opening in Hf; cbn [app List.length] in Hf.
          rewrite app_length in Hf; cbn [List.length] in Hf; rewrite !app_length in Hf; lia. }
        { exact H6. }
        exists (opening ++ b ++ x :: y ++ w ++ bs), r', q.
        split; [rewrite <- !app_assoc; cbn [app]; rewrite <- !app_assoc; reflexivity|].
        split; [constructor; auto|]; split; [exact B|]; split; [congruence|exact D].
    - exists [], r, p; split; [reflexivity|]; split; [constructor|]; split; [exact Hr|].
      split; [auto|]; left; auto.
  Qed.

  (** A single-line comment that is not followed by a newline. *)
  Definition open_line (r : text) : Prop :=
    exists c b, (c = ["%"%char] \/ c = ["/"%char; "/"%char]) /\ ~ In nl b /\ r = c ++ b.

  Lemma to_newline_result r p :
    (~ In nl r /\ to_newline r (fst p) (snd p) = Err Hang) \/
    (exists b r', r = b ++ nl :: r' /\ ~ In nl b).
  Proof.
    revert p; induction r as [|c r IH]; intros p; cbn [to_newline].
    - left; split; [intros []|reflexivity].
    - destruct (ceq_spec c nl) as [->|E].
      + right; exists [], r; split; [reflexivity|intros []].
      + change (step_line c (fst p)) with (fst (step_line c (fst p), step_col c (snd p))).
        change (step_col c (snd p)) with (snd (step_line c (fst p), step_col c (snd p))) at 2.
        destruct (IH (step_line c (fst p), step_col c (snd p))) as [[H1 H2]|(b & r' & -> & H)].
        * left; split; [intros [H|H]; [congruence|contradiction]|exact H2].
        * right; exists (c :: b), r'; split; [reflexivity|].
          intros [H'|H']; [congruence|contradiction].
  Qed.

  Lemma to_newline_none r p : ~ In nl r -> to_newline r (fst p) (snd p) = Err Hang.
  Proof.
    intros H; destruct (to_newline_result r p) as [[_ E]|(b & r' & -> & _)]; [exact E|].
    exfalso; apply H; apply in_or_app; right; left; reflexivity.
  Qed.

  Lemma open_line_run r p : is_dynare g = true -> open_line r ->
    is_single (st_at r p) = true /\ skip_singleline_comment (st_at r p) = Err Hang.
  Proof.
    intros Hg (c & b & Hc & Hb & ->); split.
    - unfold is_singleline_comment; rewrite Hg; destruct Hc as [-> | ->]; reflexivity.
    - unfold skip_singleline_comment, st_at; cbn [rest line col].
      rewrite to_newline_none; [reflexivity|].
      intros H; apply in_app_or in H as [H|H]; [|contradiction].
      destruct Hc as [-> | ->]; cbn in H; intuition discriminate.
  Qed.

  Lemma singles_run cs r p fuel :
    is_dynare g = true -> Forall line_comment cs -> stops isspace r ->
    List.length cs < fuel ->
    exists f, skip_while fuel is_single skip_singleline_comment (st_at (concat cs ++ r) p)
      = skip_while (S f) is_single skip_singleline_comment (st_at r (pos_after p (concat cs))).
  Proof.
    intros Hg Hcs Hr; revert p fuel; induction Hcs as [|c cs Hc Hcs IH]; intros p fuel Hf;
      (destruct fuel as [|fuel]; [cbn in Hf; lia|]); cbn [concat app].
    - exists fuel; reflexivity.
    - cbn [skip_while]; rewrite <- app_assoc.
      destruct (skip_line_comment g c (concat cs ++ r) p Hg Hc) as [E1 E2].
      { apply (concat_stops line_comment); auto using line_comment_stops. }
      rewrite E1, E2; cbn [bind].
      destruct (IH (pos_after p c) fuel) as [f Ef]; [cbn in Hf; lia|].
      exists f; rewrite Ef, pos_after_app; reflexivity.
  Qed.

  Lemma singles_result fuel r p :
    List.length r < fuel -> stops isspace r ->
    exists cs r', r = concat cs ++ r' /\ Forall line_comment cs /\ stops isspace r' /\
      (is_dynare g = false -> cs = []) /\
      ((is_single (st_at r' (0, 0)) = false /\
        skip_while fuel is_single skip_singleline_comment (st_at r p)
          = Ok (st_at r' (pos_after p (concat cs)))) \/
       (is_dynare g = true /\ open_line r' /\
        skip_while fuel is_single skip_singleline_comment (st_at r p) = Err Hang)).
  Proof.
    revert r p; induction fuel as [|fuel IH]; intros r p Hf Hr; [lia|]; cbn [skip_while].
    destruct (is_single (st_at r p)) eqn:Ht.
    - assert (Hg : is_dynare g = true).
      { unfold is_singleline_comment in Ht; apply andb_prop in Ht; tauto. }
      destruct (skip_singleline_comment (st_at r p)) as [s1|e] eqn:E.
      + destruct (skip_single_inv N float_of g _ _ Ht E) as (c & Hc & Er & Hst & Es).
        cbn [rest line col st_at] in Er, Es.
        rewrite <- surjective_pairing in Es.
        cbn [bind]; rewrite Es.
        destruct (IH (rest s1) (pos_after p c)) as (cs & r' & A & B & C & D & F).
        { pose proof (skip_single_length _ _ E) as L; cbn [rest st_at] in L; lia. }
        { exact Hst. }
        exists (c :: cs), r'; split; [cbn [concat]; rewrite Er, A, app_assoc; reflexivity|].
        split; [constructor; assumption|]; split; [exact C|]; split; [congruence|].
        cbn [concat]; rewrite pos_after_app; exact F.
      + exists [], r; split; [reflexivity|]; split; [constructor|]; split; [exact Hr|].
        split; [auto|]; right; split; [exact Hg|].
        unfold skip_singleline_comment, st_at in E; cbn [rest line col] in E.
        destruct (to_newline_result r p) as [[H1 H2]|(b & r' & -> & Hb)].
        * rewrite H2 in E; cbn [bind] in E; injection E as <-; split; [|reflexivity].
          unfold is_singleline_comment in Ht; apply andb_prop in Ht as [_ Ht].
          unfold cur, peek, st_at in Ht; cbn [rest] in Ht.
          destruct r as [|c r]; [discriminate|]; cbn [hd_error is_char] in Ht.
          apply orb_true_iff in Ht as [Ht|Ht].
          -- destruct (ceq_spec c "%") as [->|]; [|discriminate].
             exists ["%"%char], r; split; [auto|]; split; [|reflexivity].
             intros X; apply H1; right; exact X.
          -- apply andb_prop in Ht as [H3 H4].
             destruct (ceq_spec c "/") as [->|]; [|discriminate].
             destruct r as [|d r]; cbn in H4; [discriminate|].
             destruct (ceq_spec d "/") as [->|]; [|discriminate].
             exists ["/"%char; "/"%char], r; split; [auto|]; split; [|reflexivity].
             intros X; apply H1; right; right; exact X.
        * rewrite to_newline_app in E by exact Hb; discriminate.
    - exists [], r; split; [reflexivity|]; split; [constructor|]; split; [exact Hr|].
      split; [auto|]; left; split; [exact Ht|reflexivity].
  Qed.

  (** ** What stands in front of a token *)
  (** The rest is not taken for a comment. *)
  Definition begins (k : bool) (r : text) : Prop :=
    stops isspace r /\ is_multi (st_at r (0, 0)) = false /\
    (k = false -> is_single (st_at r (0, 0)) = false).

  Lemma skip_while_false test skip s f : test s = false -> skip_while (S f) test skip s = Ok s.
  Proof. intros H; cbn [skip_while]; rewrite H; reflexivity. Qed.

  Lemma not_dynare_single s : is_dynare g = false -> is_single s = false.
  Proof. intros H; unfold is_singleline_comment; rewrite H; reflexivity. Qed.
  Lemma not_dynare_multi s : is_dynare g = false -> is_multi s = false.
  Proof. intros H; unfold is_multiline_comment; rewrite H; reflexivity. Qed.

  Lemma multis_nonempty_single p bs r q s0 :
    multis p bs r q -> bs <> [] -> is_single (st_at (bs ++ r) s0) = false.
  Proof.
    intros H Hne; inversion H; subst; [congruence|].
    unfold is_singleline_comment; destruct (is_dynare g); reflexivity.
  Qed.

  (** Blanks skipped, [lays] read back as [skip_comments]. *)
  Lemma lays_run p lay r q k :
    lays p lay r q k -> stops isspace r -> (k = false -> is_single (st_at r (0, 0)) = false) ->
    exists r1 p1, skip_whitespace (st_at (lay ++ r) p) = st_at r1 p1 /\
      (r1 = [] -> r = [] /\ q = p1) /\
      exists f, skip_comments g (st_at r1 p1) = skip_while (S f) is_multi skip_multiline_comment (st_at r q).
  Proof.
    intros Hl Hr Hs; inversion Hl as [p0 w cs bs r0 q0 k0 H1 H2 H3 H4 H5]; subst; clear Hl.
    exists (concat cs ++ bs ++ r), (pos_after p w); split; [|split].
    - rewrite <- !app_assoc; apply skip_whitespace_app; [assumption|].
      apply (concat_stops line_comment); auto using line_comment_stops.
      eapply multis_stops; eauto.
    - intros E; apply app_eq_nil in E as [E1 E2]; apply app_eq_nil in E2 as [-> ->].
      split; [reflexivity|]. rewrite E1, app_nil_r in H3. inversion H3; reflexivity.
    - unfold skip_comments; unfold st_at at 1; cbn [rest].
      destruct (is_dynare g) eqn:Hg.
      + destruct (singles_run cs (bs ++ r) (pos_after p w) (S (List.length (concat cs ++ bs ++ r)))) as [f Ef]; auto.
        { eapply multis_stops; eauto. }
        { rewrite app_length; pose proof (concat_length_ge _ _ line_comment_nonempty H2); lia. }
        rewrite Ef, skip_while_false.
        * cbn [bind]; unfold st_at at 1; cbn [rest].
          rewrite <- pos_after_app.
          destruct (multis_run _ _ _ _ H3 Hg Hr (S (List.length (bs ++ r)))) as [f' Ef'].
          { rewrite app_length; lia. }
          exists f'; exact Ef'.
        * destruct bs as [|c bs].
          -- cbn [app]; rewrite (proj1 (comment_pos g r _)); apply Hs.
             destruct k; [exfalso; apply (proj1 H4); reflexivity|reflexivity].
          -- eapply multis_nonempty_single; eauto; discriminate.
      + destruct (H5 eq_refl) as [-> ->]; cbn [concat app] in *.
        rewrite skip_while_false by (apply not_dynare_single; exact Hg); cbn [bind].
        rewrite !app_nil_r in H3; inversion H3; subst.
        exists (List.length r); reflexivity.
  Qed.

  Lemma lays_single p lay r q k : lays p lay r q k -> lays p lay r q k /\ (k = true -> is_dynare g = true).
  Proof.
    intros H; split; [exact H|]; inversion H as [p0 w cs bs r0 q0 k0 H1 H2 H3 H4 H5]; subst; intros ->.
    destruct (is_dynare g); [reflexivity|]; destruct (H5 eq_refl) as [_ ->].
    exfalso; apply (proj1 H4); reflexivity.
  Qed.

  (** Every text, read up to its first token: layout and then something that is
      no comment, or a comment that is never ended. *)
  Lemma next_result t p :
    t <> [] ->
    exists lay r, t = lay ++ r /\
      ((exists q k, lays p lay r q k /\ begins k r /\ next_token (st_at t p) = token_at (st_at r q)) \/
       (fails Hang p t /\ next_token (st_at t p) = Err Hang)).
  Proof.
    intros Hne.
    assert (Hn : next_token (st_at t p) =
      let s1 := skip_whitespace (st_at t p) in
      match rest s1 with
      | [] => Ok (at_pos N TEof (line s1, col s1), s1)
      | _ => do s2 <- skip_comments g s1; token_at s2 end).
    { unfold Lexer.next_token; unfold st_at at 1; cbn [rest]; destruct t; [congruence|reflexivity]. }
    cbn zeta in Hn.
    destruct (skip_whitespace_inv (st_at t p)) as (w & A & B & C & D).
    set (s1 := skip_whitespace (st_at t p)) in *.
    cbn [rest line col st_at] in A, D; rewrite <- surjective_pairing in D.
    set (r1 := rest s1) in *.
    destruct (singles_result (S (List.length r1)) r1 (pos_after p w) (Nat.lt_succ_diag_r _) C)
      as (cs & r2 & E1 & E2 & E3 & E4 & [[E5 E6]|(Hg & E5 & E6)]).
    - destruct (multis_result (S (List.length r2)) r2 (pos_after (pos_after p w) (concat cs))
        (Nat.lt_succ_diag_r _) E3) as (bs & r3 & q & F1 & F2 & F3 & F4 & F5).
      rewrite <- pos_after_app in F2.
      set (k := match bs with [] => false | _ => true end).
      assert (Hl : lays p (w ++ concat cs ++ bs) r3 q k).
      { apply (Lays g p w cs bs r3 q k); auto.
        unfold k; destruct bs; split; congruence. }
      assert (Et : t = (w ++ concat cs ++ bs) ++ r3).
      { rewrite A, E1, F1, <- !app_assoc; reflexivity. }
      destruct F5 as [[F5 F6]|(Hg & b & F5 & F6 & F7)].
      + exists (w ++ concat cs ++ bs), r3; split; [exact Et|]; left; exists q, k.
        split; [exact Hl|]; split.
        { split; [exact F3|]; split; [rewrite (proj2 (comment_pos g r3 q)) in F5; exact F5|].
          intros Hk; unfold k in Hk; destruct bs; [|discriminate]; rewrite F1 in E5; exact E5. }
        rewrite Hn; destruct r1 as [|c1 r1'] eqn:Er1.
        * symmetry in E1; apply app_eq_nil in E1 as [E1 ->].
          symmetry in F1; apply app_eq_nil in F1 as [-> ->].
          rewrite E1, app_nil_r in F2; inversion F2; subst q; rewrite D.
          cbn [line col st_at]; rewrite <- surjective_pairing; reflexivity.
        * rewrite D; unfold skip_comments; unfold st_at at 1; cbn [rest].
          rewrite E6; cbn [bind]; unfold st_at at 1; cbn [rest].
          rewrite F6; reflexivity.
      + exists (w ++ concat cs ++ bs), r3; split; [exact Et|]; right; split.
        { rewrite Et, F5; rewrite F5 in Hl; eapply F_multi; eauto. }
        rewrite Hn; destruct r1 as [|c1 r1'] eqn:Er1.
        { exfalso; symmetry in E1; apply app_eq_nil in E1 as [_ ->].
          symmetry in F1; apply app_eq_nil in F1 as [_ ->]; discriminate. }
        rewrite D; unfold skip_comments; unfold st_at at 1; cbn [rest].
        rewrite E6; cbn [bind]; unfold st_at at 1; cbn [rest].
        rewrite F7; reflexivity.
    - exists w, r1; split; [exact A|]; right; split.
      { destruct E5 as (c & b & Hc & Hb & ->); rewrite A, E1; apply F_line; assumption. }
      rewrite Hn; destruct r1 as [|c1 r1'] eqn:Er1.
      { exfalso; symmetry in E1; apply app_eq_nil in E1 as [_ ->].
        destruct E5 as (c & b & [-> | ->] & _ & E5); discriminate. }
      rewrite D; unfold skip_comments; unfold st_at at 1; cbn [rest].
      rewrite E6; reflexivity.
  Qed.

  (** ** One token *)
  Lemma behind_begins k t w r :
    (k = true -> is_dynare g = true) ->
    writes_behind N float_of g k t w -> follows_behind N g k t r ->
    w <> [] /\ begins k (w ++ r) /\
    forall q, token_at (st_at (w ++ r) q) = Ok (at_pos N t (pos_after q w), st_at r (pos_after q w)).
  Proof.
    unfold begins; intros Hk [Hw | (-> & -> & ->)] Hf.
    - destruct Hf as [Hf | (-> & -> & Hr)].
      + destruct (writes_clear N float_of g _ _ _ Hw Hf) as [H1 [H2 [H3 H4]]].
        split; [exact H1|]; split; [split; [exact H2|split; [exact H4|intros _; exact H3]]|].
        intros q; apply token_at_writes; assumption.
      + specialize (Hk eq_refl); destruct g eqn:Eg; try discriminate Hk; rewrite ?Eg.
        inversion Hw; subst; cbn [sym_text chars list_ascii_of_string].
        destruct r as [|d r]; [discriminate|]; injection Hr as ->.
        split; [discriminate|]; split; [split; [reflexivity|split; [reflexivity|discriminate]]|].
        intros q; cbn [app]; unfold Lexer.token_at; unfold st_at at 1; cbn [rest].
        cbn - [advance pos_after]; rewrite advance_1; reflexivity.
    - specialize (Hk eq_refl); destruct g; try discriminate Hk.
      split; [discriminate|]; split; [split; [reflexivity|split; [|discriminate]]|].
      + reflexivity.
      + intros q; cbn [app]; unfold Lexer.token_at; unfold st_at at 1; cbn [rest].
        cbn - [advance pos_after]; rewrite advance_1; reflexivity.
  Qed.

  Lemma token_at_behind k r q lt s' :
    r <> [] -> (k = true -> is_dynare g = true) -> begins k r ->
    token_at (st_at r q) = Ok (lt, s') ->
    exists w, writes_behind N float_of g k (tk lt) w /\ r = w ++ rest s' /\
      follows_behind N g k (tk lt) (rest s') /\
      lt = at_pos N (tk lt) (pos_after q w) /\ s' = st_at (rest s') (pos_after q w).
  Proof.
    unfold begins; intros Hne Hk (H1 & H2 & H3) H.
    destruct r as [|c r]; [congruence|].
    destruct (is_single (st_at (c :: r) (0, 0))) eqn:Es.
    - destruct k; [|specialize (H3 eq_refl); discriminate].
      specialize (Hk eq_refl); destruct g eqn:Eg; try discriminate Hk.
      unfold is_singleline_comment in Es; cbn [is_dynare andb] in Es.
      unfold cur, peek, st_at in Es; cbn [rest hd_error is_char nth_error] in Es.
      apply orb_true_iff in Es as [Es|Es].
      + destruct (ceq_spec c "%") as [->|]; [|discriminate].
        unfold Lexer.token_at in H; unfold st_at at 1 in H; cbn [rest] in H.
        cbn - [advance pos_after] in H; rewrite advance_1 in H; injection H as <- <-.
        exists ["%"%char]; cbn [tk rest st_at line col]; split; [right; auto|].
        split; [reflexivity|]; split; [left; destruct r; cbn; auto|]; split; reflexivity.
      + apply andb_prop in Es as [E1 E2].
        destruct (ceq_spec c "/") as [->|]; [|discriminate].
        destruct r as [|d r]; [discriminate|]; cbn [is_char] in E2.
        destruct (ceq_spec d "/") as [->|]; [|discriminate].
        unfold Lexer.token_at in H; unfold st_at at 1 in H; cbn [rest] in H.
        cbn - [advance pos_after] in H; rewrite advance_1 in H; injection H as <- <-.
        exists ["/"%char]; cbn [tk rest st_at line col].
        split; [left; exact (W_sym N float_of Dynare Div eq_refl)|].
        split; [reflexivity|]; split; [right; auto|]; split; reflexivity.
    - destruct (token_at_inv N float_of g c r q lt s' H1 (conj Es H2) H) as (w & A & B & C & D & E).
      exists w; split; [left; exact A|]; split; [exact B|]; split; [left; exact C|]; auto.
  Qed.

  (** The errors of a single token. *)
  Lemma lex_str_body_none b q r l k : lex_str_body q r l k = Err b -> b = TypeErr /\ ~ In q r.
  Proof.
    revert l k; induction r as [|c r IH]; intros l k; cbn [lex_str_body].
    - intros H; injection H as <-; split; [reflexivity|intros []].
    - destruct (ceq_spec c q) as [->|E]; [discriminate|].
      destruct (lex_str_body q r _ _) as [ws|e] eqn:E1; cbn [bind]; [discriminate|].
      intros H; injection H as ->; apply IH in E1 as [-> H]; split; [reflexivity|].
      intros [X|X]; [congruence|contradiction].
  Qed.

  Lemma lex_str_body_open q r l k : ~ In q r -> lex_str_body q r l k = Err TypeErr.
  Proof.
    revert l k; induction r as [|c r IH]; intros l k H; cbn [lex_str_body]; [reflexivity|].
    destruct (ceq_spec c q) as [->|E]; [exfalso; apply H; left; reflexivity|].
    rewrite IH; [reflexivity|intros X; apply H; right; exact X].
  Qed.

  Definition none_char (h : cfg) (c : ascii) : bool :=
    negb (isspace c) && negb (valid_begchar h c) && negb (valid_numchar c) &&
    negb (ceq c squote) && negb (ceq c dquote) &&
    match lex_sym h c None with None => true | Some _ => false end.

  Lemma begins_none_char c : begins_none g c = none_char g c.
  Proof.
    apply Bool.eqb_prop; destruct g.
    - exact (ascii_all (fun c => Bool.eqb (begins_none BaseStandard c) (none_char BaseStandard c))
        ltac:(vm_compute; reflexivity) c).
    - exact (ascii_all (fun c => Bool.eqb (begins_none BasePython c) (none_char BasePython c))
        ltac:(vm_compute; reflexivity) c).
    - exact (ascii_all (fun c => Bool.eqb (begins_none Dynare c) (none_char Dynare c))
        ltac:(vm_compute; reflexivity) c).
  Qed.

  Lemma lex_sym_none c pk :
    lex_sym g c pk = None <-> lex_sym g c None = None.
  Proof.
    unfold lex_sym; cbn [is_char]; rewrite ?andb_false_r.
    repeat match goal with
    | |- context [if ?b then _ else _] => destruct b eqn:?
    end; split; intros H; try discriminate H; try reflexivity;
    repeat match goal with
    | E : _ && _ = true |- _ => apply andb_prop in E as [? ?]
    end; try congruence.
  Qed.

  Lemma token_at_bad r q e :
    stops isspace r -> token_at (st_at r q) = Err e <-> bad e r.
  Proof.
    intros Hs; split.
    - intros H; destruct r as [|c r]; [discriminate H|].
      unfold Lexer.token_at in H; unfold st_at at 1 in H; cbn [rest] in H.
      destruct (valid_begchar g c) eqn:B1; [discriminate|].
      destruct (valid_numchar c) eqn:B2.
      { unfold lex_number in H; cbn [rest line col st_at] in H.
        destruct (span valid_numchar (c :: r) (fst q) (snd q)) as [w s1] eqn:E.
        apply span_inv in E as (A & B & C & D).
        destruct (float_of w) as [n|] eqn:Ef; [discriminate|]; injection H as <-.
        destruct w as [|c' w]; [exfalso; cbn in A; rewrite <- A in C; cbn in C; congruence|].
        rewrite A; constructor; auto. }
      assert (St : forall q', q' = squote \/ q' = dquote -> c = q' ->
        lex_string N q' (st_at (c :: r) q) = Err e -> bad e (c :: r)).
      { intros q' Hq -> X; unfold lex_string in X; rewrite advance_1 in X.
        destruct (lex_str_body q' _ _ _) as [ws|e'] eqn:E; cbn [bind] in X; [discriminate|].
        injection X as ->; apply lex_str_body_none in E as [-> E].
        constructor; assumption. }
      destruct (ceq_spec c squote) as [Eq|B3]; [apply (St squote); auto|].
      destruct (ceq_spec c dquote) as [Eq|B4]; [apply (St dquote); auto|].
      destruct (lex_sym g c (peek (st_at (c :: r) q))) as [[y n]|] eqn:E; [discriminate|].
      injection H as <-; constructor; rewrite begins_none_char; unfold none_char.
      apply lex_sym_none in E; cbn [stops] in Hs; rewrite Hs, B1, B2, E.
      destruct (ceq_spec c squote); [contradiction|]; destruct (ceq_spec c dquote); [contradiction|reflexivity].
    - intros H; inversion H as [c w r' H1 H2 H3|q' b Hq Hb|c r' Hc]; subst; clear H;
        unfold Lexer.token_at; unfold st_at at 1; cbn [app rest].
      + assert (Hb : valid_begchar g c = false /\ valid_numchar c = true).
        { cbn [forallb] in H1; apply andb_prop in H1 as [Hc _].
          pose proof (ascii_all (fun c => negb (number_char c) || (negb (isalpha c) && negb (ceq c "_")))
            ltac:(vm_compute; reflexivity) c) as A; cbn beta in A.
          rewrite Hc in A; unfold valid_begchar; split; [|exact Hc].
          destruct (isalpha c), (ceq c "_"); try discriminate A.
          rewrite andb_false_r; reflexivity. }
        destruct Hb as [-> ->].
        unfold lex_number, st_at; cbn [rest line col].
        change (c :: w ++ r') with ((c :: w) ++ r').
        rewrite span_app; [|exact H1|exact H2]; rewrite H3; reflexivity.
      + assert (B : valid_begchar g q' = false /\ valid_numchar q' = false).
        { destruct Hq as [-> | ->]; unfold valid_begchar; destruct g; split; reflexivity. }
        destruct B as [-> ->].
        assert (Es : lex_string N q' (st_at (q' :: b) q) = Err TypeErr).
        { unfold lex_string; rewrite advance_1, lex_str_body_open; [reflexivity|exact Hb]. }
        destruct Hq as [-> | ->].
        * rewrite ceq_refl; exact Es.
        * replace (ceq dquote squote) with false by reflexivity.
          rewrite ceq_refl; exact Es.
      + rewrite begins_none_char in Hc; unfold none_char in Hc.
        repeat match goal with E : _ && _ = true |- _ => apply andb_prop in E as [E ?] end.
        repeat match goal with E : negb _ = true |- _ => apply negb_true_iff in E; rewrite E end.
        destruct (lex_sym g c None) eqn:E; [discriminate|].
        rewrite (proj2 (lex_sym_none c _) E); reflexivity.
  Qed.

  Lemma bad_begins e r k : bad e r -> begins k r /\ r <> [].
  Proof.
    assert (H0 : forall c r0, isspace c = false -> ceq c "%" = false -> ceq c "/" = false -> begins k (c :: r0)).
    { intros c r0 A1 A2 A3; destruct (clear_char g c r0 A1 A2 A3) as [X [Y Z]]; split; auto. }
    intros H; inversion H as [c w r' H1 H2 H3|q' b Hq Hb|c r' Hc]; subst; clear H; split; try discriminate.
    - cbn [forallb] in H1; apply andb_prop in H1 as [Hc _].
      pose proof (ascii_all (fun c => negb (number_char c) || (negb (isspace c) && negb (ceq c "%") && negb (ceq c "/")))
          ltac:(vm_compute; reflexivity) c) as A; cbn beta in A; rewrite Hc in A.
      destruct (isspace c) eqn:S1, (ceq c "%") eqn:S2, (ceq c "/") eqn:S3; try discriminate A.
      apply H0; assumption.
    - destruct Hq as [-> | ->]; apply H0; reflexivity.
    - assert (A : isspace c = false /\ ceq c "%" = false /\ ceq c "/" = false).
      { unfold begins_none in Hc; apply negb_true_iff in Hc.
        repeat match goal with E : _ || _ = false |- _ => apply orb_false_iff in E as [E ?] end.
        cbn [existsb chars list_ascii_of_string] in *.
        repeat match goal with E : _ || _ = false |- _ => apply orb_false_iff in E as [? E] end.
        auto. }
      destruct A as (A1 & A2 & A3); apply H0; assumption.
  Qed.

  (** ** The whole text *)
  Lemma lays_next p lay r q k :
    lays p lay r q k -> begins k r -> lay ++ r <> [] ->
    next_token (st_at (lay ++ r) p) = token_at (st_at r q).
  Proof.
    intros Hl (B1 & B2 & B3) Hne.
    destruct (lays_run _ _ _ _ _ Hl B1 B3) as (r1 & p1 & E1 & E2 & f & E3).
    unfold Lexer.next_token; unfold st_at at 1; cbn [rest].
    destruct (lay ++ r) as [|c0 t0] eqn:Et; [congruence|].
    rewrite E1; unfold st_at at 1; cbn [rest].
    destruct r1 as [|c1 r1].
    - destruct (E2 eq_refl) as [-> ->]; reflexivity.
    - rewrite E3, skip_while_false; [reflexivity|].
      rewrite (proj2 (comment_pos g r q)); exact B2.
  Qed.

  Lemma loop_step fuel t p :
    t <> [] ->
    tokenize_loop (S fuel) (st_at t p) =
      do ts <- next_token (st_at t p); do more <- tokenize_loop fuel (snd ts); Ok (fst ts :: more).
  Proof. intros H; cbn [Lexer.tokenize_loop]; unfold st_at at 1; cbn [rest]; destruct t; [congruence|reflexivity]. Qed.

  Lemma loop_nil fuel p : tokenize_loop fuel (st_at [] p) = Ok [at_pos N TEof p].
  Proof. destruct fuel; reflexivity. Qed.

  Lemma begins_nil k : begins k [].
  Proof.
    unfold begins, is_singleline_comment, is_multiline_comment; cbn; rewrite andb_false_r; auto.
  Qed.

  Lemma reads_run p ts t : reads p ts t ->
    forall fuel, List.length t <= fuel -> tokenize_loop fuel (st_at t p) = Ok ts.
  Proof.
    intros H; induction H as [p|p lay q k Hl Hne|p lay q k t w ts r Hl Hw Hf Hr IH]; intros fuel Hfuel.
    - apply loop_nil.
    - destruct fuel as [|fuel]; [destruct lay; [congruence|cbn in Hfuel; lia]|].
      rewrite loop_step by exact Hne.
      pose proof (lays_next p lay [] q k Hl (begins_nil k)) as E; rewrite app_nil_r in E.
      rewrite (E Hne); cbn [bind Lexer.token_at rest st_at snd fst].
      unfold Lexer.token_at, st_at; cbn [rest bind snd fst line col].
      change (St [] (fst q) (snd q)) with (st_at [] q); rewrite loop_nil; reflexivity.
    - destruct (behind_begins k t w r (proj2 (lays_single _ _ _ _ _ Hl)) Hw Hf) as (Hwne & Hb & Ht).
      assert (Hlen : 1 <= List.length w) by (destruct w; [congruence|cbn; lia]).
      rewrite !app_length in Hfuel.
      destruct fuel as [|fuel]; [lia|].
      assert (Hne : lay ++ w ++ r <> []).
      { intros X; apply app_eq_nil in X as [_ X]; apply app_eq_nil in X as [X _]; contradiction. }
      rewrite loop_step by exact Hne.
      rewrite (lays_next _ _ _ _ _ Hl Hb Hne), Ht; cbn [bind fst snd].
      rewrite IH by lia; reflexivity.
  Qed.

  Lemma fails_run e p t : fails e p t ->
    t <> [] /\ forall fuel, List.length t <= fuel -> tokenize_loop fuel (st_at t p) = Err e.
  Proof.
    intros H; induction H as [p w cs c b Hg Hw Hcs Hc Hb|p lay q k b Hg Hl Hb|p lay q k e r Hl Hb
      |p lay q k t w e r Hl Hw Hf Hr [_ IH]].
    - assert (Ho : open_line (c ++ b)) by (exists c, b; auto).
      assert (Hne : c ++ b <> []) by (destruct Hc as [-> | ->]; discriminate).
      assert (Hst : stops isspace (c ++ b)) by (destruct Hc as [-> | ->]; reflexivity).
      split.
      { intros X; apply app_eq_nil in X as [_ X]; apply app_eq_nil in X as [_ X]; contradiction. }
      intros fuel Hfuel.
      assert (Hne2 : w ++ concat cs ++ c ++ b <> []).
      { intros X; apply app_eq_nil in X as [_ X]; apply app_eq_nil in X as [_ X]; contradiction. }
      destruct fuel as [|fuel].
      { exfalso; destruct (w ++ concat cs ++ c ++ b); [congruence|cbn in Hfuel; lia]. }
      rewrite loop_step by exact Hne2.
      assert (E : next_token (st_at (w ++ concat cs ++ c ++ b) p) = Err Hang); [|rewrite E; reflexivity].
      unfold Lexer.next_token; unfold st_at at 1; cbn [rest].
      destruct (w ++ concat cs ++ c ++ b) as [|c0 t0] eqn:Et; [congruence|]; rewrite <- Et.
      rewrite skip_whitespace_app; [|exact Hw|apply (concat_stops line_comment); auto using line_comment_stops].
      unfold st_at at 1; cbn [rest].
      destruct (concat cs ++ c ++ b) as [|c1 t1] eqn:Et1.
      { exfalso; apply app_eq_nil in Et1 as [_ X]; contradiction. }
      rewrite <- Et1.
      unfold skip_comments; unfold st_at at 1; cbn [rest].
      destruct (singles_run cs (c ++ b) (pos_after p w) (S (List.length (concat cs ++ c ++ b)))) as [f Ef]; auto.
      { rewrite app_length; pose proof (concat_length_ge _ _ line_comment_nonempty Hcs); lia. }
      rewrite Ef; cbn [skip_while].
      destruct (open_line_run (c ++ b) (pos_after (pos_after p w) (concat cs)) Hg Ho) as [-> ->].
      reflexivity.
    - split; [intros X; apply app_eq_nil in X as [_ X]; discriminate|].
      intros fuel Hfuel.
      assert (Hne2 : lay ++ opening ++ b <> []) by (intros X; apply app_eq_nil in X as [_ X]; discriminate).
      destruct fuel as [|fuel].
      { exfalso; destruct (lay ++ opening ++ b); [congruence|cbn in Hfuel; lia]. }
      rewrite loop_step by exact Hne2.
      assert (E : next_token (st_at (lay ++ opening ++ b) p) = Err Hang); [|rewrite E; reflexivity].
      destruct (lays_run _ _ _ _ _ Hl) as (r1 & p1 & E1 & E2 & f & E3).
      { reflexivity. }
      { intros _; unfold is_singleline_comment; destruct (is_dynare g); reflexivity. }
      unfold Lexer.next_token; unfold st_at at 1; cbn [rest].
      destruct (lay ++ opening ++ b) as [|c0 t0] eqn:Et; [congruence|].
      rewrite E1; unfold st_at at 1; cbn [rest].
      destruct r1 as [|c1 r1]; [destruct (E2 eq_refl); discriminate|].
      rewrite E3; cbn [skip_while].
      rewrite is_multi_opening by exact Hg.
      unfold skip_multiline_comment, opening; cbn [app]; rewrite advance_2 by reflexivity.
      unfold st_at; cbn [rest line col].
      rewrite to_comment_end_goes_on by exact Hb; reflexivity.
    - destruct (bad_begins e r k Hb) as [Hbg Hne].
      assert (Hne2 : lay ++ r <> []) by (intros X; apply app_eq_nil in X as [_ X]; contradiction).
      split; [exact Hne2|]; intros fuel Hfuel.
      destruct fuel as [|fuel].
      { exfalso; destruct (lay ++ r); [congruence|cbn in Hfuel; lia]. }
      rewrite loop_step by exact Hne2.
      rewrite (lays_next _ _ _ _ _ Hl Hbg Hne2).
      rewrite (proj2 (token_at_bad r q e (proj1 Hbg)) Hb); reflexivity.
    - destruct (behind_begins k t w r (proj2 (lays_single _ _ _ _ _ Hl)) Hw Hf) as (Hwne & Hb & Ht).
      assert (Hlen : 1 <= List.length w) by (destruct w; [congruence|cbn; lia]).
      assert (Hne : lay ++ w ++ r <> []).
      { intros X; apply app_eq_nil in X as [_ X]; apply app_eq_nil in X as [X _]; contradiction. }
      split; [exact Hne|]; intros fuel Hfuel.
      rewrite !app_length in Hfuel.
      destruct fuel as [|fuel]; [lia|].
      rewrite loop_step by exact Hne.
      rewrite (lays_next _ _ _ _ _ Hl Hb Hne), Ht; cbn [bind fst snd].
      rewrite IH by lia; reflexivity.
  Qed.

  (** Every text is either read or fails. *)
  Lemma reads_or_fails n t p : List.length t <= n -> (exists ts, reads p ts t) \/ (exists e, fails e p t).
  Proof.
    revert t p; induction n as [|n IH]; intros t p Hn.
    - destruct t; [left; eexists; apply R_eof|cbn in Hn; lia].
    - destruct t as [|c0 t0]; [left; eexists; apply R_eof|].
      assert (Hne : c0 :: t0 <> []) by discriminate; revert Hn Hne.
      generalize (c0 :: t0); clear c0 t0; intros t Hn Hne.
      destruct (next_result t p Hne) as (lay & r & Et & [(q & k & Hl & Hb & En)|[Hf _]]); [|right; eauto].
      destruct r as [|c r].
      + left; eexists; rewrite Et, app_nil_r; eapply R_layout; eauto.
        rewrite Et, app_nil_r in Hne; exact Hne.
      + destruct (token_at (st_at (c :: r) q)) as [[lt s']|e] eqn:E.
        * destruct (token_at_behind k (c :: r) q lt s') as (w & A & B & C & D & F);
            [discriminate|exact (proj2 (lays_single _ _ _ _ _ Hl))|exact Hb|exact E|].
          destruct (behind_begins k _ w (rest s') (proj2 (lays_single _ _ _ _ _ Hl)) A C) as (Hwne & _ & _).
          assert (Hlen : List.length (rest s') <= n).
          { rewrite Et, B, !app_length in Hn; destruct w; [congruence|cbn in Hn; lia]. }
          rewrite B in Hl, Et.
          destruct (IH (rest s') (pos_after q w) Hlen) as [[ts H]|[e H]].
          -- left; eexists; rewrite Et; eapply R_tok; eauto.
          -- right; exists e; rewrite Et; eapply F_tok; eauto.
        * right; exists e; rewrite Et; eapply F_bad; eauto.
          apply (token_at_bad (c :: r) q e); [exact (proj1 Hb)|exact E].
  Qed.

  Theorem tokenize_exact t ts :
    tokenize t = Ok ts <-> t <> [] /\ reads (1, 0) ts t.
  Proof.
    unfold Lexer.tokenize; destruct t as [|c t]; [split; [discriminate|intros [H _]; congruence]|].
    change (St (c :: t) 1 0) with (st_at (c :: t) (1, 0)).
    split.
    - intros H; split; [discriminate|].
      destruct (reads_or_fails _ (c :: t) (1, 0) (le_n _)) as [[ts' R]|[e F]].
      + rewrite (reads_run _ _ _ R _ (le_n _)) in H; injection H as <-; exact R.
      + rewrite (proj2 (fails_run _ _ _ F) _ (le_n _)) in H; discriminate.
    - intros [_ R]; apply reads_run; auto.
  Qed.

  Theorem tokenize_fails t e :
    tokenize t = Err e <-> (t = [] /\ e = IndexErr) \/ fails e (1, 0) t.
  Proof.
    unfold Lexer.tokenize; destruct t as [|c t].
    - split; [intros H; injection H as <-; left; auto|].
      intros [[_ ->]|H]; [reflexivity|]; apply fails_run in H as [H _]; congruence.
    - change (St (c :: t) 1 0) with (st_at (c :: t) (1, 0)).
      split.
      + intros H; right.
        destruct (reads_or_fails _ (c :: t) (1, 0) (le_n _)) as [[ts' R]|[e' F]].
        * rewrite (reads_run _ _ _ R _ (le_n _)) in H; discriminate.
        * rewrite (proj2 (fails_run _ _ _ F) _ (le_n _)) in H; injection H as <-; exact F.
      + intros [[H _]|F]; [discriminate|]; apply fails_run; auto.
  Qed.
End Proofs.

(** Rows: every newline in front of a token is counted, except one that directly
    follows the star at which a multi-line comment ends. *)
Section Rows.
  Variable N : Type.
  Variable float_of : text -> option N.
  Variable g : cfg.

  Definition newlines (t : text) : nat := count_occ ascii_dec t nl.

  Lemma newlines_app a b : newlines (a ++ b) = newlines a + newlines b.
  Proof. apply count_occ_app. Qed.

  Lemma after_row p t : fst (pos_after p t) = fst p + newlines t.
  Proof.
    revert p; induction t as [|c t IH]; intros p; unfold newlines; cbn [count_occ]; [cbn; lia|].
    unfold pos_after in *; cbn [fold_left]; rewrite IH; unfold newlines.
    unfold pos_step; destruct (ceq_spec c nl), (ascii_dec c nl); cbn [fst]; try congruence; lia.
  Qed.

  Lemma jump_row p x : fst (jump p x) = fst p + newlines [x].
  Proof.
    unfold jump, newlines; cbn [count_occ].
    destruct (ceq_spec x nl), (ascii_dec x nl); cbn [fst]; try congruence; lia.
  Qed.

  Lemma adjacent_pair a b u t : adjacent a b (u ++ a :: b :: t) = true.
  Proof.
    induction u as [|c u IH]; cbn [app].
    - cbn [adjacent]; rewrite !ceq_refl; reflexivity.
    - destruct u as [|d u]; cbn [app adjacent] in *; rewrite IH; apply orb_true_r.
  Qed.

  Lemma adjacent_app_l a b u t : adjacent a b (u ++ t) = false -> adjacent a b u = false.
  Proof.
    induction u as [|c u IH]; [reflexivity|]; intros H.
    destruct u as [|d u]; [reflexivity|]; cbn [app adjacent] in *.
    apply orb_false_iff in H as [H1 H2]; rewrite H1; cbn [orb]; apply IH; exact H2.
  Qed.

  Lemma multis_row p bs r q : multis p bs r q ->
    fst q <= fst p + newlines bs /\
    (adjacent "*" nl bs = false -> fst q = fst p + newlines bs).
  Proof.
    intros H; induction H as [p r|p b x y w bs r q H1 H2 H3 H4 H5 Hm [IH1 IH2]].
    - cbn; lia.
    - rewrite after_row, jump_row, after_row, newlines_app in IH1, IH2.
      assert (E : newlines (opening ++ b ++ x :: y ++ w ++ bs)
        = newlines b + newlines [x] + newlines y + newlines w + newlines bs).
      { change (opening ++ b ++ x :: y ++ w ++ bs) with (opening ++ b ++ [x] ++ y ++ w ++ bs).
        rewrite !newlines_app; cbn; lia. }
      rewrite E; change (newlines opening) with 0 in *; split; [lia|].
      intros Ha.
      assert (Hy : newlines y = 0).
      { destruct y as [|d y]; [reflexivity|].
        assert (y = []) as ->.
        { destruct H4 as [H4|H4]; [destruct y; cbn in H4; [reflexivity|lia]|discriminate]. }
        unfold newlines; cbn [count_occ]; destruct (ascii_dec d nl) as [->|]; [|reflexivity].
        exfalso; destruct H3 as [-> | H3]; [|discriminate].
        pose proof (adjacent_pair "*" nl (opening ++ b) (w ++ bs)) as X.
        rewrite <- app_assoc in X; cbn [app] in X, Ha; congruence. }
      assert (Ha' : adjacent "*" nl bs = false).
      { change (opening ++ b ++ x :: y ++ w ++ bs) with (opening ++ b ++ [x] ++ y ++ w ++ bs) in Ha.
        do 5 apply adjacent_app_r in Ha; exact Ha. }
      rewrite (IH2 Ha'); lia.
  Qed.

  Lemma lays_row p lay r q k : lays g p lay r q k ->
    fst q <= fst p + newlines lay /\
    (adjacent "*" nl lay = false -> fst q = fst p + newlines lay).
  Proof.
    intros H; inversion H as [p0 w cs bs r0 q0 k0 H1 H2 H3 H4 H5]; subst.
    apply multis_row in H3 as [A B].
    rewrite app_assoc, newlines_app; rewrite after_row in A, B; split; [lia|].
    intros Ha; apply adjacent_app_r in Ha; rewrite (B Ha); lia.
  Qed.

  Lemma reads_row p ts t u : reads N float_of g p ts t -> In u ts ->
    exists pre post, t = pre ++ post /\
      tline u <= fst p + newlines pre /\
      (adjacent "*" nl t = false -> tline u = fst p + newlines pre) /\
      (tk u <> TEof -> exists lay w k, pre = lay ++ w /\ writes_behind N float_of g k (tk u) w).
  Proof.
    intros H; induction H as [p|p lay q k Hl Hne|p lay q k t w ts r Hl Hw Hf Hr IH]; intros Hu.
    - destruct Hu as [<-|[]]; exists [], []; cbn [tline at_pos]; split; [reflexivity|].
      cbn; split; [lia|]; split; [intros; lia|congruence].
    - destruct (lays_row _ _ _ _ _ Hl) as [A B].
      exists lay, []; rewrite app_nil_r; split; [reflexivity|].
      destruct Hu as [<-|[<-|[]]]; cbn [tline tk at_pos]; (split; [exact A|]; split; [exact B|congruence]).
    - destruct (lays_row _ _ _ _ _ Hl) as [A B].
      destruct Hu as [<-|Hu].
      + exists (lay ++ w), r; rewrite app_assoc; split; [reflexivity|].
        cbn [tline tk at_pos]; rewrite after_row, newlines_app; split; [lia|]; split.
        * intros Ha; do 2 apply adjacent_app_l in Ha; rewrite (B Ha); lia.
        * intros _; exists lay, w, k; auto.
      + destruct (IH Hu) as (pre & post & -> & C & D & E).
        exists (lay ++ w ++ pre), post; rewrite <- !app_assoc; split; [reflexivity|].
        rewrite after_row in C, D; rewrite !newlines_app; split; [lia|]; split.
        * intros Ha.
          assert (Ha2 : adjacent "*" nl (pre ++ post) = false).
          { do 2 apply adjacent_app_r in Ha; exact Ha. }
          rewrite (D Ha2), (B (adjacent_app_l _ _ _ _ Ha)); lia.
        * intros He; destruct (E He) as (lay' & w' & k' & -> & W).
          exists (lay ++ w ++ lay'), w', k'; rewrite <- !app_assoc; auto.
  Qed.

  (** Texts that are never read to their end. *)
  Lemma fails_hang p t : fails N float_of g Hang p t ->
    (exists a b, t = a ++ b /\ ~ In nl b /\ b <> []) \/
    (exists a b, t = a ++ opening ++ b /\ goes_on b).
  Proof.
    intros H; remember Hang as e; induction H as [p w cs c b Hg Hw Hcs Hc Hb|p lay q k b Hg Hl Hb|p lay q k e r Hl Hb
      |p lay q k t w e r Hl Hw Hf Hr IH].
    - left; exists (w ++ concat cs), (c ++ b); rewrite <- app_assoc; split; [reflexivity|].
      split; [|destruct Hc as [-> | ->]; discriminate].
      intros X; apply in_app_or in X as [X|X]; [|contradiction].
      destruct Hc as [-> | ->]; cbn in X; intuition discriminate.
    - right; exists lay, b; auto.
    - subst e; inversion Hb.
    - destruct (IH Heqe) as [(a & b & -> & X)|(a & b & -> & X)].
      + left; exists (lay ++ w ++ a), b; rewrite <- !app_assoc; auto.
      + right; exists (lay ++ w ++ a), b; rewrite <- !app_assoc; auto.
  Qed.
End Rows.
