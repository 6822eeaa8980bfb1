(** Proofs about paths and printed equations. *)
From Verif Require Import Base Syntax Lexer Parser Eval Semantics Factory Calib Indexing DynFunc Vars ExprList ModelState Paths PathsSpec.

Lemma ceq_spec a b : reflect (a = b) (ceq a b).
Proof. apply Ascii.eqb_spec. Qed.

Lemma split_cons c t : exists p ps, split c t = p :: ps.
Proof.
  destruct t as [|a t]; cbn; [eauto|]; destruct (ceq a c); [eauto|]; destruct (split c t); eauto.
Qed.
Lemma split_hd c t p ps : split c t = p :: ps ->
  lacks c p /\ exists suffix, t = p ++ suffix /\
    ((suffix = [] /\ ps = []) \/ exists r, suffix = c :: r /\ split c r = ps).
Proof.
  revert p ps; induction t as [|a t IH]; intros p ps; cbn [split].
  { intros E; injection E as <- <-; split; [intros []|]; exists []; auto. }
  destruct (ceq_spec a c) as [->|N].
  - intros E; injection E as <- <-; split; [intros []|]; exists (c :: t); split; [reflexivity|right; eauto].
  - destruct (split_cons c t) as (q & qs & Eq); rewrite Eq; intros E; injection E as <- <-.
    destruct (IH _ _ Eq) as (L & suffix & -> & H); split; [intros [X|X]; [congruence|exact (L X)]|].
    exists suffix; split; [reflexivity|exact H].
Qed.
Lemma split_one c t : lacks c t -> split c t = [t].
Proof.
  induction t as [|a t IH]; intros L; cbn [split]; [reflexivity|].
  destruct (ceq_spec a c) as [->|N]; [destruct L; left; reflexivity|].
  rewrite IH; [reflexivity|intros X; apply L; right; exact X].
Qed.
Lemma split_more c p r : lacks c p -> split c (p ++ c :: r) = p :: split c r.
Proof.
  induction p as [|a p IH]; intros L; cbn [app split].
  { destruct (ceq_spec c c); [reflexivity|congruence]. }
  destruct (ceq_spec a c) as [->|N]; [destruct L; left; reflexivity|].
  rewrite IH; [reflexivity|intros X; apply L; right; exact X].
Qed.
Lemma split_last c t : exists dir, t = dir ++ last (split c t) [] /\ lacks c (last (split c t) []) /\
  (dir = [] \/ exists d, dir = d ++ [c]).
Proof.
  remember (List.length t) as n eqn:En; revert t En; induction n as [n IH] using lt_wf_ind; intros t ->.
  destruct (split_cons c t) as (p & ps & E); destruct (split_hd c t p ps E) as (L & suffix & Et & H).
  rewrite E; destruct H as [(-> & ->)|(r & -> & Er)].
  - exists []; cbn [last]; rewrite app_nil_r in Et; auto.
  - destruct (IH (List.length r) ltac:(subst t; rewrite app_length; cbn; lia) r eq_refl) as (dir & Ed & Ld & Hd).
    destruct (split_cons c r) as (q & qs & Eq); rewrite <- Er; rewrite Eq in *.
    change (last (p :: q :: qs) []) with (last (q :: qs) ([] : text)).
    exists (p ++ c :: dir); split; [rewrite <- app_assoc; cbn [app]; rewrite <- Ed; exact Et|split; [exact Ld|]].
    right; destruct Hd as [->|(d & ->)]; [exists p; reflexivity|exists (p ++ c :: d)].
    rewrite <- app_assoc; reflexivity.
Qed.

(** Taking what is before the first occurrence. *)
Lemma before_unique c p p' (s s' : text) :
  lacks c p -> lacks c p' -> (s = [] \/ exists r, s = c :: r) -> (s' = [] \/ exists r, s' = c :: r) ->
  p ++ s = p' ++ s' -> p = p'.
Proof.
  revert p'; induction p as [|a p IH]; intros [|b p'] L L' Hs Hs' E; cbn [app] in E; [reflexivity| | |].
  - destruct Hs as [->|(r & ->)]; [discriminate|]; injection E as -> _; destruct L'; left; reflexivity.
  - destruct Hs' as [->|(r & ->)]; [discriminate|]; injection E as -> _; destruct L; left; reflexivity.
  - injection E as -> E; f_equal; apply IH; auto; intros X; [apply L|apply L']; right; exact X.
Qed.
Lemma after_unique c p p' (d d' : text) :
  lacks c p -> lacks c p' -> (d = [] \/ exists r, d = r ++ [c]) -> (d' = [] \/ exists r, d' = r ++ [c]) ->
  d ++ p = d' ++ p' -> p = p'.
Proof.
  intros L L' Hd Hd' E; apply (f_equal (@rev ascii)) in E; rewrite !rev_app_distr in E.
  assert (R : forall x, lacks c x -> lacks c (rev x)) by (intros x Hx X; apply Hx; apply in_rev; exact X).
  assert (S : forall x : text, (x = [] \/ exists r, x = r ++ [c]) -> rev x = [] \/ exists r, rev x = c :: r).
  { intros x [->|(r & ->)]; [left; reflexivity|right; exists (rev r); rewrite rev_app_distr; reflexivity]. }
  rewrite <- (rev_involutive p), <- (rev_involutive p'); f_equal.
  eapply (before_unique c); [apply R, L|apply R, L'|apply S, Hd|apply S, Hd'|exact E].
Qed.

Lemma stem_hd p s : stem p s <-> hd [] (split dot p) = s.
Proof.
  destruct (split_cons dot p) as (q & qs & E); destruct (split_hd dot p q qs E) as (L & suffix & Ep & H).
  assert (Hs : suffix = [] \/ exists r, suffix = dot :: r) by (destruct H as [(-> & _)|(r & -> & _)]; eauto).
  rewrite E; cbn [hd]; split.
  - intros (Ls & suf & Es & Hsuf); apply (before_unique dot q s suffix suf); auto; congruence.
  - intros <-; split; [exact L|]; exists suffix; auto.
Qed.
Lemma stem_unique p s s' : stem p s -> stem p s' -> s = s'.
Proof. rewrite !stem_hd; congruence. Qed.

Lemma lookup_in {A} k (d : list (string * A)) v : lookup k d = Some v -> In (k, v) d.
Proof.
  induction d as [|(x, u) d IH]; cbn; [discriminate|]; destruct (String.eqb_spec k x) as [->|]; [intros E; injection E as ->; auto|auto].
Qed.
Lemma chars_str t : chars (str t) = t.
Proof. apply list_ascii_of_string_of_list_ascii. Qed.
Lemma str_chars s : str (chars s) = s.
Proof. apply string_of_list_ascii_of_string. Qed.

Definition dotless (s : string) : bool := negb (existsb (ceq dot) (chars s)).
Lemma dotless_lacks s : dotless s = true -> lacks "." (chars s).
Proof.
  unfold dotless; intros H X; apply negb_true_iff in H; rewrite <- not_true_iff_false in H; apply H.
  apply existsb_exists; exists "."%char; split; [exact X|reflexivity].
Qed.
Lemma registry_spec k q : lookup k registry = Some q <-> In (k, q) examples.
Proof.
  split; [apply lookup_in|].
  intros H; cbn in H; repeat (destruct H as [H|H]; [injection H as <- <-; reflexivity|]); destruct H.
Qed.
Lemma registry_dotless k q : lookup k registry = Some q -> dotless k = true.
Proof.
  intros H; apply lookup_in in H; cbn in H; repeat (destruct H as [H|H]; [injection H as <- <-; reflexivity|]); destruct H.
Qed.

Lemma get_example_ok s q : get_example (PStr s) = Ok q <-> means_example s q.
Proof.
  unfold get_example, means_example; split.
  - destruct (lookup (str s) registry) as [p|] eqn:E.
    + intros X; injection X as ->; exists (str s); split; [apply registry_spec; exact E|].
      apply registry_dotless, dotless_lacks in E; split; [exact E|exists []; rewrite chars_str, app_nil_r; auto].
    + destruct (lookup (str (hd [] (split dot s))) registry) as [p|] eqn:E'; [|discriminate].
      intros X; injection X as ->; exists (str (hd [] (split dot s))); split; [apply registry_spec; exact E'|].
      rewrite chars_str; apply stem_hd; reflexivity.
  - intros (name & H & St); assert (L := St); apply stem_hd in St; apply registry_spec in H.
    destruct (lookup (str s) registry) as [p|] eqn:E.
    + assert (St' : stem s s).
      { apply registry_dotless, dotless_lacks in E; rewrite chars_str in E; split; [exact E|exists []; rewrite app_nil_r; auto]. }
      assert (X := stem_unique _ _ _ L St'); rewrite <- X, str_chars, H in E; congruence.
    + rewrite St, str_chars, H; reflexivity.
Qed.
Lemma get_example_err s e : get_example (PStr s) = Err e -> e = ValueErr /\ forall q, ~ means_example s q.
Proof.
  intros H; split.
  - unfold get_example in H; destruct (lookup _ _); [discriminate|]; destruct (lookup _ _); congruence.
  - intros q X; apply get_example_ok in X; congruence.
Qed.

Lemma name_spec s n : name_of (PStr s) = Ok n <-> file_name s n.
Proof.
  unfold name_of; destruct (split_last slash s) as (dir & Es & Ls & Hd); set (b := last (split slash s) []) in *.
  destruct (split_cons dot b) as (q & qs & E); destruct (split_hd dot b q qs E) as (L & suffix & Eb & H).
  assert (Hs : suffix = [] \/ exists r, suffix = dot :: r) by (destruct H as [(-> & _)|(r & -> & _)]; eauto).
  rewrite E; cbn [hd]; split.
  - intros X; injection X as <-; exists dir, suffix; split; [rewrite Es, Eb; reflexivity|].
    assert (Lq : lacks slash q) by (intros X; apply Ls; rewrite Eb; apply in_or_app; auto).
    split; [exact Lq|split; [exact L|split; [exact Hd|]]].
    destruct Hs as [->|(r & ->)]; [left; reflexivity|right; exists r; split; [reflexivity|]].
    intros X; apply Ls; rewrite Eb; apply in_or_app; right; right; exact X.
  - intros (dir' & suf & Ep & Ln & Ld & Hd' & Hsuf); f_equal.
    assert (B : b = n ++ suf).
    { apply (after_unique slash b (n ++ suf) dir dir'); auto.
      - intros X; apply in_app_or in X as [X|X]; [exact (Ln X)|]; destruct Hsuf as [->|(r & -> & Lr)]; [exact X|].
        destruct X as [X|X]; [discriminate X|exact (Lr X)].
      - rewrite <- Es; exact Ep. }
    apply (before_unique dot q n suffix suf); auto; [|congruence].
    destruct Hsuf as [->|(r & -> & _)]; eauto.
Qed.

(** ** Printed equations *)

Lemma isspace_white c : isspace c = true <-> white c.
Proof.
  unfold isspace, white; rewrite orb_true_iff, !andb_true_iff, !Nat.leb_le; lia.
Qed.
Lemma lstrip_spec t : exists a, t = a ++ lstrip t /\ Forall white a /\ (forall c s', lstrip t = c :: s' -> ~ white c).
Proof.
  induction t as [|c t IH]; cbn [lstrip]; [exists []; repeat split; [constructor|discriminate]|].
  destruct (isspace c) eqn:E.
  - destruct IH as (a & Et & W & N); exists (c :: a); split; [cbn [app]; rewrite <- Et; reflexivity|].
    split; [constructor; [apply isspace_white; exact E|exact W]|exact N].
  - exists []; repeat split; [constructor|]; intros c' s' X W; injection X as <- <-; apply isspace_white in W; congruence.
Qed.
Lemma Forall_rev' {A} (P : A -> Prop) l : Forall P l -> Forall P (rev l).
Proof. rewrite !Forall_forall; intros H x Hx; apply H; apply in_rev; exact Hx. Qed.
Lemma strip_trimmed t : trimmed t (strip t).
Proof.
  unfold strip; destruct (lstrip_spec t) as (a & Et & Wa & Na); set (u := lstrip t) in *.
  destruct (lstrip_spec (rev u)) as (b & Eu & Wb & Nb); set (v := lstrip (rev u)) in *.
  assert (Eu' : u = rev v ++ rev b) by (rewrite <- rev_app_distr, <- Eu, rev_involutive; reflexivity).
  exists a, (rev b); split; [rewrite Et at 1; rewrite Eu'; reflexivity|].
  split; [exact Wa|split; [apply Forall_rev'; exact Wb|split]].
  - intros c s' E; rewrite E in Eu'; exact (Na c _ Eu').
  - intros s' c E; apply (f_equal (@rev ascii)) in E; rewrite rev_involutive, rev_app_distr in E; exact (Nb c _ E).
Qed.
Lemma trim_left a s b a' s' b' :
  Forall white a -> Forall white a' -> Forall white b -> Forall white b' ->
  (forall c r, s = c :: r -> ~ white c) -> (forall c r, s' = c :: r -> ~ white c) ->
  a ++ s ++ b = a' ++ s' ++ b' -> s <> [] -> s' <> [] -> a = a'.
Proof.
  revert a'; induction a as [|x a IH]; intros [|y a'] Wa Wa' Wb Wb' N N' E Ns Ns'; cbn [app] in E; [reflexivity| | |].
  - destruct s as [|c s]; [congruence|]; injection E as -> _; inversion Wa'; subst; destruct (N _ _ eq_refl); assumption.
  - destruct s' as [|c s']; [congruence|]; injection E as -> _; inversion Wa; subst; destruct (N' _ _ eq_refl); assumption.
  - injection E as -> E; inversion Wa; inversion Wa'; subst; f_equal; eapply IH; eauto.
Qed.
Lemma trimmed_nil t s : trimmed t s -> Forall white t -> s = [].
Proof.
  intros (a & b & -> & _ & _ & N & _) W; destruct s as [|c s]; [reflexivity|].
  destruct (N _ _ eq_refl); rewrite Forall_forall in W; apply W; apply in_or_app; right; left; reflexivity.
Qed.
Lemma trimmed_unique t s s' : trimmed t s -> trimmed t s' -> s = s'.
Proof.
  intros T T'; assert (D := T); assert (D' := T').
  destruct T as (a & b & E & Wa & Wb & N & M), T' as (a' & b' & E' & Wa' & Wb' & N' & M').
  destruct s as [|c s].
  { symmetry; apply (trimmed_nil t); [exact D'|]; rewrite E; apply Forall_app; split; [exact Wa|exact Wb]. }
  destruct s' as [|c' s'].
  { apply (trimmed_nil t); [exact D|]; rewrite E'; apply Forall_app; split; [exact Wa'|exact Wb']. }
  assert (Ea : a = a') by (eapply (trim_left a (c :: s) b a' (c' :: s') b'); eauto; [congruence|discriminate|discriminate]).
  subst a'; rewrite E in E'; apply app_inv_head in E'.
  assert (R := f_equal (@rev ascii) E'); rewrite !rev_app_distr in R.
  assert (Eb : rev b = rev b').
  { apply (trim_left (rev b) (rev (c :: s)) [] (rev b') (rev (c' :: s')) []); try apply Forall_rev'; auto.
    - intros x r X; apply (f_equal (@rev ascii)) in X; rewrite rev_involutive in X; exact (M _ _ X).
    - intros x r X; apply (f_equal (@rev ascii)) in X; rewrite rev_involutive in X; exact (M' _ _ X).
    - rewrite !app_nil_r; exact R.
    - intros X; apply (f_equal (@rev ascii)) in X; rewrite rev_involutive in X; discriminate X.
    - intros X; apply (f_equal (@rev ascii)) in X; rewrite rev_involutive in X; discriminate X. }
  rewrite Eb in R; apply app_inv_head in R; rewrite <- (rev_involutive (c :: s)), R, rev_involutive; reflexivity.
Qed.

Lemma two_sides_ok t l r : two_sides t = Ok (l, r) <-> sides t l r.
Proof.
  unfold two_sides, sides; split.
  - destruct (split_cons "="%char t) as (a & ps & E); destruct (split_hd _ _ _ _ E) as (L & suffix & Et & H).
    rewrite E; destruct ps as [|b [|]]; try discriminate; intros X; injection X as <- <-.
    destruct H as [(_ & X)|(rr & -> & Er)]; [discriminate X|].
    destruct (split_hd _ _ _ _ Er) as (Lb & suf & Eb & [(-> & _)|(x & _ & X)]); [|destruct (split_cons "="%char x) as (? & ? & Y); congruence].
    rewrite app_nil_r in Eb; subst rr; exists a, b; repeat split; auto using strip_trimmed.
  - intros (a & b & -> & La & Lb & Ta & Tb); rewrite split_more, split_one by assumption.
    rewrite (trimmed_unique a l (strip a)), (trimmed_unique b r (strip b)); auto using strip_trimmed.
Qed.
Lemma two_sides_err t e : two_sides t = Err e -> e = ValueErr.
Proof. unfold two_sides; destruct (split "="%char t) as [|? [|? [|]]]; congruence. Qed.

Lemma mapM_sides ts ps : mapM two_sides ts = Ok ps <-> Forall2 (fun t p => sides t (fst p) (snd p)) ts ps.
Proof.
  revert ps; induction ts as [|t ts IH]; intros ps; cbn [mapM].
  { split; [intros E; injection E as <-; constructor|intros H; inversion H; reflexivity]. }
  split.
  - destruct (two_sides t) as [(l, r)|] eqn:Et; [|discriminate]; cbn [bind]; destruct (mapM two_sides ts) as [qs|]; [|discriminate]; cbn [bind].
    intros E; injection E as <-; constructor; [apply two_sides_ok; exact Et|apply IH; reflexivity].
  - intros H; inversion H as [|? (l, r) ? qs H1 H2]; subst; apply two_sides_ok in H1; apply IH in H2; rewrite H1; cbn [bind]; rewrite H2; reflexivity.
Qed.
Lemma mapM_sides_err ts e : mapM two_sides ts = Err e -> e = ValueErr.
Proof.
  induction ts as [|t ts IH]; cbn [mapM]; [discriminate|]; destruct (two_sides t) as [p|e'] eqn:Et; cbn [bind].
  - destruct (mapM two_sides ts); cbn [bind]; [discriminate|intros X; injection X as ->; auto].
  - intros X; injection X as <-; exact (two_sides_err _ _ Et).
Qed.
Lemma widest_fold ls : ls <> [] -> widest ls (fold_right Nat.max 0 (map (@List.length ascii) ls)).
Proof.
  induction ls as [|l ls IH]; [congruence|]; intros _; cbn [map fold_right].
  destruct ls as [|l' ls].
  { cbn; rewrite Nat.max_0_r; split; [intros x [<-|[]]; lia|exists l; auto with datatypes]. }
  destruct (IH ltac:(discriminate)) as (B & x & Hx & Ex); set (w := fold_right Nat.max 0 (map (@List.length ascii) (l' :: ls))) in *; split.
  - intros y [<-|Hy]; [lia|specialize (B y Hy); lia].
  - destruct (Nat.max_spec (List.length l) w) as [(_ & ->)|(_ & ->)]; [exists x; auto with datatypes|exists l; auto with datatypes].
Qed.
Lemma widest_unique ls w w' : widest ls w -> widest ls w' -> w = w'.
Proof.
  intros (B & x & Hx & Ex) (B' & x' & Hx' & Ex'); specialize (B _ Hx'); specialize (B' _ Hx); lia.
Qed.
Lemma join_lines h ls : join [nl] (h :: ls) = h ++ concat (map (fun l => nl :: l) ls).
Proof.
  revert h; induction ls as [|l ls IH]; intros h; [cbn; rewrite app_nil_r; reflexivity|].
  change (join [nl] (h :: l :: ls)) with (h ++ [nl] ++ join [nl] (l :: ls)); rewrite IH; reflexivity.
Qed.
Lemma print_ok {V} (x : mexprs V) out :
  exprs_str x = Ok out <-> exists ps, ps <> [] /\ Forall2 (fun t p => sides t (fst p) (snd p)) (texts x) ps /\ print_of ps out.
Proof.
  unfold exprs_str; split.
  - destruct (mapM two_sides (texts x)) as [ps|] eqn:E; [|discriminate]; cbn [bind].
    destruct ps as [|p ps]; [discriminate|]; intros X.
    apply (f_equal (fun r => match r with Ok a => a | Err _ => [] end)) in X; cbv beta iota zeta in X; subst out; exists (p :: ps).
    split; [discriminate|split; [apply mapM_sides; exact E|]].
    assert (W := widest_fold (map fst (p :: ps)) ltac:(discriminate)); rewrite map_map in W; cbn [map] in W.
    match goal with |- print_of _ ?o => replace o with (chars "Model Expressions" ++ concat (map (fun q => nl :: shown_line (fold_right Nat.max 0 (map (fun y => List.length (fst y)) (p :: ps))) (fst q) (snd q)) (p :: ps))) end.
    { constructor; exact W. }
    set (w := fold_right _ _ _) in *; rewrite join_lines, map_map; do 2 f_equal; apply map_ext; intros q; f_equal.
    unfold shown_line, ljust; cbn [join]; rewrite <- !app_assoc; reflexivity.
  - intros (ps & Np & H & P); apply mapM_sides in H; rewrite H; cbn [bind]; destruct ps as [|p ps]; [congruence|].
    inversion P as [ps' w W E1 E2]; subst ps'; apply (f_equal Ok).
    assert (W' := widest_fold (map fst (p :: ps)) ltac:(discriminate)); rewrite map_map in W'.
    rewrite (widest_unique _ _ _ W W'); cbv zeta; rewrite join_lines, map_map; do 2 f_equal; apply map_ext; intros q; f_equal.
    unfold shown_line, ljust; cbn [join]; rewrite <- !app_assoc; reflexivity.
Qed.
Lemma print_err {V} (x : mexprs V) e : exprs_str x = Err e -> e = ValueErr.
Proof.
  unfold exprs_str; destruct (mapM two_sides (texts x)) as [[|]|e'] eqn:E; cbn [bind]; [congruence|discriminate|].
  intros X; injection X as <-; exact (mapM_sides_err _ _ E).
Qed.
