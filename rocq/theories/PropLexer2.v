(** C01-C04 for every text, multi-line comments included. *)
From Verif Require Import Base Lexer LexerSpec LexerProofs LexerProofs2 LexerProofs3 LexerExactSpec LexerExact.

(** C01, C02. What every text is read as: [reads] for a list of located tokens,
    [fails] for an exception or a loop that never ends; the empty text raises
    IndexError.  Nothing is assumed of the text. *)
Theorem C01_every_text :
  forall (N : Type) (float_of : text -> option N) (g : cfg) (t : text),
    (forall ts, tokenize N float_of g t = Ok ts <-> t <> [] /\ reads N float_of g (1, 0) ts t) /\
    (forall e, tokenize N float_of g t = Err e <->
       (t = [] /\ e = IndexErr) \/ fails N float_of g e (1, 0) t).
Proof. intros N fo g t; split; intros; [apply tokenize_exact|apply tokenize_fails]. Qed.
Print Assumptions C01_every_text.

(** A text with a multi-line comment of two stars, a quotient behind it and a
    single-line comment that is no comment there, as [reads] tells it. *)
Example C01_every_text_nonvacuous :
  exists ts, reads string lit_of Dynare (1, 0) ts (chars "x /* a */ // b" ++ [nl]) /\
    map tk ts = [TId "x"; TSym Div; TSym Div; TId "b"; TEof; TEof]%string.
Proof.
  pose (t := chars "x /* a */ // b" ++ [nl]).
  destruct (tokenize string lit_of Dynare t) as [ts|e] eqn:E; [|vm_compute in E; discriminate].
  exists ts; split; [apply (proj1 (C01_every_text string lit_of Dynare t)); exact E|].
  vm_compute in E; injection E as <-; reflexivity.
Qed.

(** The words that are functions, and the characters that are blanks, digits and
    letters. *)
Theorem C01_words :
  reserved_funcs = ["exp"; "log"; "ln"; "log10"; "sqrt"; "abs"; "sign"; "sin"; "cos"; "tan";
    "asin"; "acos"; "atan"; "max"; "min"; "normcdf"; "normpdf"; "erf"]%string /\
  (forall c, isspace c = true <-> In (nat_of_ascii c) [9; 10; 11; 12; 13; 28; 29; 30; 31; 32]) /\
  (forall c, isdigit c = true <-> In c (chars "0123456789")) /\
  (forall c, isalpha c = true <->
     In c (chars "abcdefghijklmnopqrstuvwxyzABCDEFGHIJKLMNOPQRSTUVWXYZ")).
Proof.
  assert (A : forall (f : ascii -> bool) (l : list ascii),
    (forall c, f c = existsb (ceq c) l) -> forall c, f c = true <-> In c l).
  { intros f l H c; rewrite H, existsb_exists; split.
    - intros (d & Hd & E); destruct (ceq_spec c d) as [->|]; [exact Hd|discriminate].
    - intros Hc; exists c; split; [exact Hc|apply ceq_refl]. }
  split; [reflexivity|]; split; [|split; apply A].
  - intros c.
    assert (E : isspace c = existsb (Nat.eqb (nat_of_ascii c)) [9; 10; 11; 12; 13; 28; 29; 30; 31; 32]).
    { apply Bool.eqb_prop.
      exact (ascii_all (fun c => Bool.eqb (isspace c)
        (existsb (Nat.eqb (nat_of_ascii c)) [9; 10; 11; 12; 13; 28; 29; 30; 31; 32]))
        ltac:(vm_compute; reflexivity) c). }
    rewrite E, existsb_exists; split.
    + intros (n & Hn & En); apply Nat.eqb_eq in En; rewrite En; exact Hn.
    + intros H; eexists; split; [exact H|apply Nat.eqb_refl].
  - intros c; apply Bool.eqb_prop.
    exact (ascii_all (fun c => Bool.eqb (isdigit c) (existsb (ceq c) (chars "0123456789")))
      ltac:(vm_compute; reflexivity) c).
  - intros c; apply Bool.eqb_prop.
    exact (ascii_all (fun c => Bool.eqb (isalpha c)
      (existsb (ceq c) (chars "abcdefghijklmnopqrstuvwxyzABCDEFGHIJKLMNOPQRSTUVWXYZ")))
      ltac:(vm_compute; reflexivity) c).
Qed.
Print Assumptions C01_words.

(** C02. For every text: the row given to a token is at most one plus the
    newlines in front of its end, and exactly that when no star of the text is
    directly followed by a newline.  The prefix [pre] ends in the token. *)
Theorem C02_rows_every_text_partial :
  forall (N : Type) (float_of : text -> option N) (g : cfg) (t : text) (ts : list (ltok N)) (u : ltok N),
    tokenize N float_of g t = Ok ts -> In u ts ->
    exists pre post, t = pre ++ post /\
      tline u <= 1 + count_occ ascii_dec pre nl /\
      (adjacent "*" nl t = false -> tline u = 1 + count_occ ascii_dec pre nl) /\
      (tk u <> TEof -> exists lay w k, pre = lay ++ w /\ writes_behind N float_of g k (tk u) w) /\
      (shared N (tk u) = None -> observed N ts u = u).
Proof.
  intros N fo g t ts u H Hu.
  apply tokenize_exact in H as [_ H].
  destruct (reads_row N fo g _ _ _ _ H Hu) as (pre & post & A & B & C & D).
  exists pre, post; split; [exact A|]; split; [exact B|]; split; [exact C|]; split; [exact D|].
  apply observed_fresh.
Qed.
Print Assumptions C02_rows_every_text_partial.

Example C02_rows_every_text_nonvacuous :
  let t := chars "/* a" ++ [nl] ++ chars "b */ x" in
  adjacent "*" nl t = false /\
  exists ts, lex Dynare t = Ok ts /\ In (LTok (TId "x"%string) 2 6) ts.
Proof. cbn zeta; split; [reflexivity|]; eexists; split; [vm_compute; reflexivity|]; cbn; auto. Qed.

(** C03. Exactly the texts that are never read to their end. *)
Theorem C03_hangs_exactly :
  forall (N : Type) (float_of : text -> option N) (g : cfg) (t : text),
    tokenize N float_of g t = Err Hang <-> fails N float_of g Hang (1, 0) t.
Proof.
  intros N fo g t; rewrite tokenize_fails; split; [|auto].
  intros [[_ H]|H]; [discriminate|exact H].
Qed.
Print Assumptions C03_hangs_exactly.

(** In particular a text that ends in a newline is read to its end if a star
    stands somewhere behind each [/*], as it does when comments are closed. *)
Theorem C03_closed_comments_partial :
  forall (N : Type) (float_of : text -> option N) (g : cfg) (t : text),
    (forall a b, t = a ++ chars "/*" ++ b -> In "*"%char b) ->
    tokenize N float_of g (t ++ [nl]) <> Err Hang /\
    tokenize N float_of g (t ++ [nl]) <> Err OutOfFuel.
Proof.
  intros N fo g t Hc; split; [|apply tokenize_fuel_suffices].
  intros H; apply C03_hangs_exactly, fails_hang in H as [(a & b & E & Hb & Hne)|(a & b & E & [Hb _])].
  - apply Hb; destruct (exists_last Hne) as (b' & x & ->).
    rewrite app_assoc in E; apply app_inj_tail in E as [_ <-].
    apply in_or_app; right; left; reflexivity.
  - destruct b as [|c b].
    + change (a ++ opening ++ []) with (a ++ ["/"%char] ++ ["*"%char]) in E.
      rewrite app_assoc in E; apply app_inj_tail in E as [_ E]; discriminate.
    + destruct (exists_last (l := c :: b)) as (b' & x & Eb); [discriminate|].
      rewrite Eb in *; rewrite !app_assoc in E; apply app_inj_tail in E as [E <-].
      apply Hb, in_or_app; left; apply (Hc a b').
      rewrite E, <- app_assoc; reflexivity.
Qed.
Print Assumptions C03_closed_comments_partial.

Example C03_closed_comments_nonvacuous :
  forall a b, chars "x; /* a * b */" = a ++ chars "/*" ++ b -> In "*"%char b.
Proof.
  intros a b H; cbv [chars list_ascii_of_string] in H.
  do 3 (destruct a as [|? a]; cbn [app] in H; [discriminate H|injection H as <- H]).
  destruct a as [|? a]; cbn [app] in H; [injection H as <-; cbn; tauto|injection H as <- H].
  do 9 (destruct a as [|? a]; cbn [app] in H; [discriminate H|injection H as <- H]).
  destruct a as [|? a]; cbn [app] in H; [discriminate H|injection H as <- H].
  destruct a; discriminate H.
Qed.
