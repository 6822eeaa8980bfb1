(** C02 for the tokens as they are seen once the text is read: keywords and functions too. *)
From Verif Require Import Base Lexer LexerSpec LexerProofs LexerProofs2 LexerProofs3 LexerExactSpec LexerExact PropLexer2.

(** The keyword or function [k]. *)
Definition is_word {N} (k : string) (x : tok N) : Prop := x = TKw k \/ x = TFun k.

Lemma shared_word N k (x : tok N) : shared N x = Some k <-> is_word k x.
Proof.
  unfold is_word; destruct x; cbn; split; intros H; try discriminate; try (destruct H as [H|H]; try discriminate H);
    injection H as ->; auto.
Qed.
Lemma find_rev_last {A} (p : A -> bool) (l : list A) w : find p (rev l) = Some w ->
  exists j, nth_error l j = Some w /\ p w = true /\ forall k x, j < k -> nth_error l k = Some x -> p x = false.
Proof.
  induction l as [|a l IH] using rev_ind; cbn; [discriminate|]; rewrite rev_app_distr; cbn.
  destruct (p a) eqn:E.
  - intros H; injection H as <-; exists (List.length l); split; [rewrite nth_error_app2 by lia; rewrite Nat.sub_diag; reflexivity|]; split; [exact E|].
    intros k x Hk Hx; assert (k < List.length (l ++ [a])) by (apply nth_error_Some; congruence); rewrite app_length in *; cbn in *; lia.
  - intros H; destruct (IH H) as (j & Hj & Hp & Hl); assert (Lj : j < List.length l) by (apply nth_error_Some; congruence).
    exists j; split; [rewrite nth_error_app1 by exact Lj; exact Hj|]; split; [exact Hp|]; intros k x Hk Hx.
    destruct (Nat.lt_ge_cases k (List.length l)) as [Lk|Lk]; [rewrite nth_error_app1 in Hx by exact Lk; exact (Hl k x Hk Hx)|].
    rewrite nth_error_app2 in Hx by exact Lk; destruct (k - List.length l) as [|[|]]; cbn in Hx; try discriminate; injection Hx as <-; exact E.
Qed.

(** The full claim (C02): every token shows the row of its end.  For every text: the token at position
    [i] is seen with the location that was given to the token at position [j]: itself, unless it
    is a keyword or a function, and else the last occurrence of the word.  Its row is thus
    never too small, if the rows given are right, and it is right for words that do
    not occur again. *)
Theorem C02_shown_partial :
  forall (N : Type) (float_of : text -> option N) (g : cfg) (t : text) (ts : list (ltok N)),
    tokenize N float_of g t = Ok ts ->
    List.length (observed_stream N ts) = List.length ts /\
    forall i v, nth_error (observed_stream N ts) i = Some v ->
    exists u j w, nth_error ts i = Some u /\ tk v = tk u /\ nth_error ts j = Some w /\ tline v = tline w /\ tcol v = tcol w /\ i <= j /\
      ((forall k, ~ is_word k (tk u)) -> j = i) /\
      (forall k, is_word k (tk u) -> is_word k (tk w) /\ forall n x, j < n -> nth_error ts n = Some x -> ~ is_word k (tk x)) /\
      exists pre post, t = pre ++ post /\ tline v <= 1 + count_occ ascii_dec pre nl /\
        (adjacent "*" nl t = false -> tline v = 1 + count_occ ascii_dec pre nl) /\
        (tk w <> TEof -> exists lay s b, pre = lay ++ s /\ writes_behind N float_of g b (tk w) s).
Proof.
  intros N fo g t ts H; split; [apply map_length|]; intros i v Hv.
  unfold observed_stream in Hv; destruct (nth_error ts i) as [u|] eqn:Hu.
  2:{ apply nth_error_None in Hu; assert (nth_error (map (observed N ts) ts) i = None) by (apply nth_error_None; rewrite map_length; exact Hu); congruence. }
  rewrite (map_nth_error (observed N ts) _ _ Hu) in Hv; injection Hv as <-.
  assert (Fin : forall w j, nth_error ts j = Some w -> exists pre post, t = pre ++ post /\ tline w <= 1 + count_occ ascii_dec pre nl /\
        (adjacent "*" nl t = false -> tline w = 1 + count_occ ascii_dec pre nl) /\
        (tk w <> TEof -> exists lay s b, pre = lay ++ s /\ writes_behind N fo g b (tk w) s)).
  { intros w j Hw; destruct (C02_rows_every_text_partial N fo g t ts w H (nth_error_In _ _ Hw)) as (pre & post & A & B & C & D & _); exists pre, post; auto. }
  unfold observed; destruct (find _ (rev ts)) as [w|] eqn:E.
  - destruct (find_rev_last _ _ _ E) as (j & Hj & Hp & Hl).
    unfold same_shared in Hp; destruct (shared N (tk w)) as [a|] eqn:Sw; [|discriminate]; destruct (shared N (tk u)) as [b|] eqn:Su; [|discriminate].
    apply String.eqb_eq in Hp; subst b; exists u, j, w; cbn [tk tline tcol].
    split; [reflexivity|]; split; [reflexivity|]; split; [exact Hj|]; split; [reflexivity|]; split; [reflexivity|]; split; [|split; [|split]].
    + destruct (Nat.le_gt_cases i j) as [|L]; [assumption|]; specialize (Hl i u L Hu); unfold same_shared in Hl; rewrite Su, String.eqb_refl in Hl; discriminate.
    + intros No; exfalso; apply (No a), shared_word, Su.
    + intros k Hk; apply shared_word in Hk; rewrite Su in Hk; injection Hk as ->; split; [apply shared_word, Sw|].
      intros n x Ln Hx Hw; apply shared_word in Hw; specialize (Hl n x Ln Hx); unfold same_shared in Hl; rewrite Hw, Su, String.eqb_refl in Hl; discriminate.
    + exact (Fin w j Hj).
  - exists u, i, u; split; [reflexivity|]; split; [reflexivity|]; split; [exact Hu|]; split; [reflexivity|]; split; [reflexivity|]; split; [lia|]; split; [reflexivity|]; split; [|exact (Fin u i Hu)].
    intros k Hk; split; [exact Hk|]; apply shared_word in Hk; exfalso.
    pose proof (find_none _ _ E u (proj1 (in_rev ts u) (nth_error_In _ _ Hu))) as X; cbn in X; unfold same_shared in X; rewrite Hk, String.eqb_refl in X; discriminate.
Qed.
Print Assumptions C02_shown_partial.

(** The first [var] is seen on the second row, where the word occurs again; the name behind it and
    the keyword that occurs once are seen where they are. *)
Example C02_shown_nonvacuous :
  let t := chars "var x; model;" ++ [nl] ++ chars "var y;" in
  adjacent "*" nl t = false /\
  exists ts, lex Dynare t = Ok ts /\ map (fun u => (tk u, tline u)) (observed_stream string ts) =
    [(TKw "var", 2); (TId "x", 1); (TSym Semi, 1); (TKw "model", 1); (TSym Semi, 1); (TKw "var", 2); (TId "y", 2); (TSym Semi, 2); (TEof, 2)]%string.
Proof. cbn zeta; split; [reflexivity|]; eexists; split; [vm_compute; reflexivity|]; vm_compute; reflexivity. Qed.
