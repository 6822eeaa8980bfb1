(** Proofs about the collection of equations. *)
From Verif Require Import Base Syntax Lexer Parser ExprList ExprListSpec.

Section Lists.
  Context {A B : Type}.
  Lemma insert_at_app i (a : A) l : i <= List.length l -> insert_at i a l = firstn i l ++ a :: skipn i l.
  Proof.
    revert i; induction l as [|b l IH]; intros [|i] H; cbn [insert_at firstn skipn app List.length] in *; try reflexivity.
    f_equal; apply IH; lia.
  Qed.
  Lemma delete_at_app i (l : list A) : i < List.length l -> delete_at i l = firstn i l ++ skipn (S i) l.
  Proof.
    revert i; induction l as [|b l IH]; intros [|i] H; cbn [delete_at firstn app List.length] in *; try lia; [reflexivity|].
    rewrite IH by lia; reflexivity.
  Qed.
  Lemma replace_at_app i (a : A) l : i < List.length l -> replace_at i a l = firstn i l ++ a :: skipn (S i) l.
  Proof.
    revert i; induction l as [|b l IH]; intros [|i] H; cbn [replace_at firstn app List.length] in *; try lia; [reflexivity|].
    rewrite IH by lia; reflexivity.
  Qed.
  Lemma map_insert_at (f : A -> B) i a l : map f (insert_at i a l) = insert_at i (f a) (map f l).
  Proof. revert i; induction l as [|b l IH]; intros [|i]; cbn [insert_at map]; try reflexivity; rewrite IH; reflexivity. Qed.
  Lemma map_delete_at (f : A -> B) i l : map f (delete_at i l) = delete_at i (map f l).
  Proof. revert i; induction l as [|b l IH]; intros [|i]; cbn [delete_at map]; try reflexivity; rewrite IH; reflexivity. Qed.
  Lemma map_replace_at (f : A -> B) i a l : map f (replace_at i a l) = replace_at i (f a) (map f l).
  Proof. revert i; induction l as [|b l IH]; intros [|i]; cbn [replace_at map]; try reflexivity; rewrite IH; reflexivity. Qed.
  Lemma map_remove_where (f : A -> B) p i l : map f (remove_where p i l) = remove_where p i (map f l).
  Proof. revert i; induction l as [|b l IH]; intros i; cbn [remove_where map]; [reflexivity|]; destruct (p i); cbn [map]; rewrite IH; reflexivity. Qed.
  Lemma remove_where_filter p i (l : list A) :
    remove_where p i l = map snd (filter (fun iq => negb (p (fst iq))) (combine (seq i (List.length l)) l)).
  Proof.
    revert i; induction l as [|b l IH]; intros i; cbn [remove_where List.length seq combine filter]; [reflexivity|].
    cbn [fst]; destruct (p i); cbn [negb map snd]; rewrite IH; reflexivity.
  Qed.
  Lemma length_delete_at i (l : list A) : i < List.length l -> List.length (delete_at i l) = List.length l - 1.
  Proof. intros H; rewrite delete_at_app, app_length, firstn_length_le, skipn_length by lia; lia. Qed.
  Lemma length_replace_at i (a : A) l : List.length (replace_at i a l) = List.length l.
  Proof. revert i; induction l as [|b l IH]; intros [|i]; cbn [replace_at List.length]; try reflexivity; rewrite IH; reflexivity. Qed.
  Lemma nth_replace_at i (a : A) l j : i < List.length l ->
    nth_error (replace_at i a l) j = if j =? i then Some a else nth_error l j.
  Proof.
    revert i j; induction l as [|b l IH]; intros [|i] [|j] H; cbn [replace_at nth_error List.length] in *; try lia; try reflexivity.
    rewrite IH by lia; reflexivity.
  Qed.
  Lemma split_nth i (l : list A) : i < List.length l -> exists l1 a l2, l = l1 ++ a :: l2 /\ List.length l1 = i.
  Proof.
    intros H; destruct (nth_error l i) as [a|] eqn:E; [|apply nth_error_None in E; lia].
    apply nth_error_split in E as (l1 & l2 & -> & E); eauto 6.
  Qed.
  Lemma firstn_exact (l1 l2 : list A) : firstn (List.length l1) (l1 ++ l2) = l1.
  Proof. rewrite firstn_app, firstn_all, Nat.sub_diag, firstn_O, app_nil_r; reflexivity. Qed.
  Lemma skipn_exact (l1 l2 : list A) : skipn (List.length l1) (l1 ++ l2) = l2.
  Proof. rewrite skipn_app, skipn_all, Nat.sub_diag; reflexivity. Qed.
  Lemma app_inj_length (l1 l2 m1 m2 : list A) : List.length l1 = List.length m1 -> l1 ++ l2 = m1 ++ m2 -> l1 = m1 /\ l2 = m2.
  Proof.
    revert m1; induction l1 as [|a l1 IH]; intros [|b m1] H; cbn [List.length app] in *; try discriminate; [auto|].
    intros E; injection E as -> E; apply IH in E as [-> ->]; auto.
  Qed.
  Lemma nth_error_ext_len (l m : list A) : List.length l = List.length m ->
    (forall j, j < List.length l -> nth_error l j = nth_error m j) -> l = m.
  Proof.
    revert m; induction l as [|a l IH]; intros [|b m] H; cbn [List.length] in *; try discriminate; intros Hj; [reflexivity|].
    f_equal; [specialize (Hj 0 ltac:(lia)); cbn in Hj; congruence|].
    apply IH; [lia|]; intros j Hlt; apply (Hj (S j)); lia.
  Qed.
  Lemma nth_error_rev (l : list A) j : j < List.length l -> nth_error (rev l) j = nth_error l (List.length l - S j).
  Proof.
    intros H; destruct l as [|a l]; [cbn in H; lia|].
    rewrite (nth_error_nth' (rev (a :: l)) a) by (rewrite rev_length; exact H).
    rewrite (nth_error_nth' (a :: l) a) by lia.
    rewrite rev_nth by exact H; reflexivity.
  Qed.
  Lemma skipn_exact1 (l1 : list A) a l2 : skipn (S (List.length l1)) (l1 ++ a :: l2) = l2.
  Proof. induction l1 as [|b l1 IH]; [reflexivity|exact IH]. Qed.
End Lists.

Section Proofs.
  Variable V : Type.
  Variable parse_text : text -> res (ast V).
  Notation holds := (holds V parse_text).
  Notation means := (means V parse_text).
  Notation effect := (effect V parse_text).
  Notation run := (eop_run V parse_text).
  Let src (q : equation V) : text := match source V q with Some t => t | None => [] end.

  Lemma index_denotes n k i : index n k = Some i <-> denotes n k i.
  Proof.
    unfold index, denotes; cbv zeta.
    destruct (Z.leb_spec 0 k), (Z.ltb_spec k (Z.of_nat n)), (Z.leb_spec (- Z.of_nat n) k), (Z.ltb_spec k 0); cbn [andb];
      split; try (intros H'; injection H' as <-; lia); try discriminate; try (intros [H3 [H4|H4]]; f_equal; lia); try lia.
    all: intros [H3 [H4|H4]]; exfalso; lia.
  Qed.

  Lemma parse_means g e : parse_given V parse_text g = Ok e ->
    exists q, means g q /\ tree V q = e /\ src q = text_of V g.
  Proof.
    destruct g as [t|e'|]; cbn [parse_given]; intros H; [|injection H as ->|discriminate].
    - exists (Equation V e (Some t)); repeat split; constructor; exact H.
    - exists (Equation V e None); repeat split; constructor.
  Qed.
  Lemma means_good g q t : means g q -> source V q = Some t -> parse_text t = Ok (tree V q).
  Proof. intros [t' e H|e]; cbn [source tree]; intros E; [injection E as <-; exact H|discriminate]. Qed.
  Lemma means_parse g q : means g q -> parse_given V parse_text g = Ok (tree V q) /\ text_of V g = src q.
  Proof. intros [t e H|e]; cbn [parse_given text_of tree]; auto. Qed.

  Lemma holds_length x l : holds x l -> List.length (trees x) = List.length l /\ List.length (texts x) = List.length l.
  Proof. intros (-> & -> & _); rewrite !map_length; auto. Qed.

  Lemma holds_insert x l i g q : holds x l -> means g q ->
    holds (MExprs (insert_at i (tree V q) (trees x)) (insert_at i (src q) (texts x))) (insert_at i q l).
  Proof.
    intros (H1 & H2 & H3) Hq; split; [|split]; cbn [trees texts].
    - rewrite map_insert_at, H1; reflexivity.
    - rewrite map_insert_at, H2; reflexivity.
    - intros q' t Hin Ht.
      assert (Hor : q' = q \/ In q' l).
      { clear -Hin; revert i Hin; induction l as [|b l IH]; intros [|i]; cbn [insert_at In]; intuition subst; auto.
        apply IH in H; intuition. }
      destruct Hor as [->|Hl]; [eapply means_good; eauto|eauto].
  Qed.
  Lemma holds_delete x l i : holds x l ->
    holds (MExprs (delete_at i (trees x)) (delete_at i (texts x))) (delete_at i l).
  Proof.
    intros (H1 & H2 & H3); split; [|split]; cbn [trees texts].
    - rewrite map_delete_at, H1; reflexivity.
    - rewrite map_delete_at, H2; reflexivity.
    - intros q t Hin; apply H3; clear -Hin; revert i Hin; induction l as [|b l IH]; intros [|i]; cbn [delete_at In]; intuition.
      right; eapply IH; eauto.
  Qed.
  Lemma holds_replace x l i q : holds x l -> (forall t, source V q = Some t -> parse_text t = Ok (tree V q)) ->
    holds (MExprs (replace_at i (tree V q) (trees x)) (replace_at i (src q) (texts x))) (replace_at i q l).
  Proof.
    intros (H1 & H2 & H3) Hq; split; [|split]; cbn [trees texts].
    - rewrite map_replace_at, H1; reflexivity.
    - rewrite map_replace_at, H2; reflexivity.
    - intros q' t Hin Ht.
      assert (Hor : q' = q \/ In q' l).
      { clear -Hin; revert i Hin; induction l as [|b l IH]; intros [|i]; cbn [replace_at In]; intuition subst; auto.
        apply IH in H; intuition. }
      destruct Hor as [->|Hl]; [auto|eauto].
  Qed.

  Lemma insert_index_split n k : insert_index n k <= n.
  Proof. unfold insert_index; cbv zeta; destruct (Z.ltb_spec k 0); lia. Qed.

  Lemma insert_spec x l k g x' r : holds x l -> insert V parse_text k g x = (x', r) ->
    match r with
    | Ok _ => exists q, means g q /\ holds x' (insert_at (insert_index (List.length l) k) q l)
    | Err _ => x' = x
    end.
  Proof.
    intros Hh; unfold insert.
    destruct (parse_given V parse_text g) as [e|er] eqn:E; intros H; injection H as <- <-; [|reflexivity].
    destruct (parse_means g e E) as (q & Hq & <- & Hs).
    exists q; split; [exact Hq|].
    destruct (holds_length x l Hh) as [-> ->]; rewrite <- Hs; apply (holds_insert _ _ _ g); assumption.
  Qed.

  Lemma insert_at_end {A} (a : A) l : insert_at (List.length l) a l = l ++ [a].
  Proof. induction l as [|b l IH]; [reflexivity|cbn [List.length insert_at app]; rewrite IH; reflexivity]. Qed.

  Lemma append_spec x l g x' r : holds x l -> append V parse_text g x = (x', r) ->
    match r with Ok _ => exists q, means g q /\ holds x' (l ++ [q]) | Err _ => x' = x end.
  Proof.
    intros Hh H; unfold append in H; apply (insert_spec _ l) in H; [|exact Hh].
    destruct r; [|exact H]; destruct H as (q & Hq & H); exists q; split; [exact Hq|].
    rewrite (proj1 (holds_length x l Hh)) in H.
    replace (insert_index (List.length l) (Z.of_nat (List.length l))) with (List.length l) in H.
    - rewrite insert_at_end in H; exact H.
    - unfold insert_index; cbv zeta; destruct (Z.ltb_spec (Z.of_nat (List.length l)) 0); lia.
  Qed.

  (** [extend] keeps what was added before the one that fails. *)
  Lemma extend_spec gs x l x' r : holds x l -> extend V parse_text gs x = (x', r) ->
    exists qs, holds x' (l ++ qs) /\
      match r with
      | Ok _ => Forall2 means gs qs
      | Err _ => exists gs1 gs2, gs = gs1 ++ gs2 /\ gs2 <> [] /\ Forall2 means gs1 qs
      end.
  Proof.
    revert x l; induction gs as [|g gs IH]; intros x l Hh; cbn [extend].
    - intros H; injection H as <- <-; exists []; rewrite app_nil_r; auto.
    - destruct (append V parse_text g x) as [x1 [u|er]] eqn:E; apply (append_spec _ l) in E; try exact Hh.
      + destruct E as (q & Hq & E); intros H; apply (IH x1 (l ++ [q]) E) in H as (qs & H1 & H2).
        exists (q :: qs); rewrite <- app_assoc in H1; split; [exact H1|].
        destruct r; [constructor; assumption|].
        destruct H2 as (gs1 & gs2 & -> & H3 & H4); exists (g :: gs1), gs2; repeat split; auto.
      + subst x1; intros H; injection H as <- <-; exists []; rewrite app_nil_r; split; [exact Hh|].
        exists [], (g :: gs); repeat split; [discriminate|constructor].
  Qed.

  Lemma set_spec x l k g x' r : holds x l -> set V parse_text k g x = (x', r) ->
    match r with
    | Ok _ => exists q i, means g q /\ denotes (List.length l) k i /\ holds x' (replace_at i q l)
    | Err _ => x' = x
    end.
  Proof.
    intros Hh; unfold set.
    destruct (parse_given V parse_text g) as [e|er] eqn:E; [|intros H; injection H as <- <-; reflexivity].
    destruct (holds_length x l Hh) as [-> ->].
    destruct (index (List.length l) k) as [i|] eqn:Ei; intros H; injection H as <- <-; [|reflexivity].
    destruct (parse_means g e E) as (q & Hq & <- & Hs).
    exists q, i; split; [exact Hq|]; split; [apply index_denotes; exact Ei|].
    rewrite <- Hs; cbn [trees]; apply holds_replace; [exact Hh|intros t; apply (means_good g); exact Hq].
  Qed.

  Lemma del_spec x l k x' r : holds x l -> del V k x = (x', r) ->
    match r with
    | Ok _ => exists i, denotes (List.length l) k i /\ holds x' (delete_at i l)
    | Err er => x' = x /\ er = IndexErr /\ forall i, ~ denotes (List.length l) k i
    end.
  Proof.
    intros Hh; unfold del.
    destruct (holds_length x l Hh) as [-> ->].
    destruct (index (List.length l) k) as [i|] eqn:Ei; intros H; injection H as <- <-.
    - exists i; split; [apply index_denotes; exact Ei|]; cbn [trees]; apply holds_delete; exact Hh.
    - split; [reflexivity|]; split; [reflexivity|].
      intros i Hi; apply index_denotes in Hi; congruence.
  Qed.

  Lemma pop_spec x l k x' r : holds x l -> pop V k x = (x', r) ->
    match r with
    | Ok _ => exists i, denotes (List.length l) k i /\ holds x' (delete_at i l)
    | Err er => x' = x /\ er = IndexErr /\ forall i, ~ denotes (List.length l) k i
    end.
  Proof.
    intros Hh; unfold pop.
    destruct (index (List.length (trees x)) k) as [i|] eqn:Ei; [apply del_spec; exact Hh|].
    intros H; injection H as <- <-; split; [reflexivity|]; split; [reflexivity|].
    rewrite (proj1 (holds_length x l Hh)) in Ei; intros i Hi; apply index_denotes in Hi; congruence.
  Qed.

  Lemma clear_spec n x l : holds x l -> List.length l < n ->
    exists x', clear_n V n x = (x', Ok tt) /\ holds x' [].
  Proof.
    revert x l; induction n as [|n IH]; intros x l Hh Hl; [lia|].
    cbn [clear_n]; destruct (pop V (-1) x) as [x1 r] eqn:E.
    apply (pop_spec _ l) in E; [|exact Hh].
    destruct r as [u|er].
    - destruct E as (i & [Hi _] & E).
      apply (IH x1 (delete_at i l) E); rewrite length_delete_at by exact Hi; lia.
    - destruct E as (-> & -> & E); exists x; split; [reflexivity|].
      destruct l as [|q l]; [exact Hh|exfalso].
      apply (E (List.length l)); split; cbn [List.length]; lia.
  Qed.

  Lemma find_at_spec p i (l : list (ast V)) j : find_at V p i l = Some j ->
    exists l1 e l2, l = l1 ++ e :: l2 /\ j = i + List.length l1 /\ p e = true /\ Forall (fun e => p e = false) l1.
  Proof.
    revert i; induction l as [|e l IH]; intros i; cbn [find_at]; [discriminate|].
    destruct (p e) eqn:Ep; intros H.
    - injection H as <-; exists [], e, l; repeat split; auto; cbn [List.length]; lia.
    - apply IH in H as (l1 & e' & l2 & -> & -> & H1 & H2); exists (e :: l1), e', l2; repeat split; auto; cbn [List.length]; lia.
  Qed.

  (** Reversing: after [i] swaps the outer equations have changed places. *)
  Lemma swaps_spec n c : forall i x l, holds x l -> List.length l = n -> 2 * (i + c) <= n ->
    exists x' l', swaps V parse_text n i c x = (x', Ok tt) /\ holds x' l' /\ List.length l' = n /\
      forall j, nth_error l' j =
        if (i <=? j) && (j <? i + c) || (n - (i + c) <=? j) && (j <? n - i)
        then option_map (fun q => Equation V (tree V q) None) (nth_error l (n - j - 1))
        else nth_error l j.
  Proof.
    induction c as [|c IH]; intros i x l Hh Hl Hn; cbn [swaps].
    - exists x, l; split; [reflexivity|]; split; [exact Hh|]; split; [exact Hl|].
      intros j; replace ((i <=? j) && (j <? i + 0) || (n - (i + 0) <=? j) && (j <? n - i)) with false; [reflexivity|].
      symmetry; apply orb_false_iff; rewrite !andb_false_iff, !Nat.leb_gt, !Nat.ltb_ge; lia.
    - pose proof Hh as (Ht & _ & _).
      assert (Hb : i < n /\ n - i - 1 < n /\ i <> n - i - 1) by lia.
      destruct (nth_error l i) as [qi|] eqn:Ei; [|apply nth_error_None in Ei; lia].
      destruct (nth_error l (n - i - 1)) as [qj|] eqn:Ej; [|apply nth_error_None in Ej; lia].
      rewrite Ht, !nth_error_map, Ei, Ej; cbn [option_map].
      destruct (set V parse_text (Z.of_nat i) (GTree (tree V qj)) x) as [x1 r1] eqn:E1.
      assert (H1 : r1 = Ok tt /\ holds x1 (replace_at i (Equation V (tree V qj) None) l)).
      { unfold set in E1; cbn [parse_given] in E1.
        destruct (holds_length x l Hh) as [L1 L2]; rewrite L1, L2 in E1.
        assert (Ei' : index (List.length l) (Z.of_nat i) = Some i) by (apply index_denotes; split; lia).
        rewrite Ei' in E1; injection E1 as <- <-; split; [reflexivity|].
        cbn [trees text_of].
        apply (holds_replace x l i (Equation V (tree V qj) None) Hh); discriminate. }
      destruct H1 as [-> H1].
      destruct (set V parse_text (Z.of_nat (n - i - 1)) (GTree (tree V qi)) x1) as [x2 r2] eqn:E2.
      assert (H2 : r2 = Ok tt /\ holds x2 (replace_at (n - i - 1) (Equation V (tree V qi) None)
                                              (replace_at i (Equation V (tree V qj) None) l))).
      { unfold set in E2; cbn [parse_given] in E2.
        destruct (holds_length x1 _ H1) as [L1 L2]; rewrite length_replace_at in L1, L2; rewrite L1, L2 in E2.
        assert (Ei' : index (List.length l) (Z.of_nat (n - i - 1)) = Some (n - i - 1)) by (apply index_denotes; split; lia).
        rewrite Ei' in E2; injection E2 as <- <-; split; [reflexivity|].
        cbn [trees text_of].
        apply (holds_replace x1 _ (n - i - 1) (Equation V (tree V qi) None) H1); discriminate. }
      destruct H2 as [-> H2].
      destruct (IH (S i) x2 _ H2) as (x' & l' & Hs & Hh' & Hl' & Hnth); [rewrite !length_replace_at; exact Hl|lia|].
      exists x', l'; split; [exact Hs|]; split; [exact Hh'|]; split; [exact Hl'|].
      intros j; rewrite Hnth.
      rewrite !nth_replace_at by (rewrite ?length_replace_at; lia).
      destruct ((S i <=? j) && (j <? S i + c) || (n - (S i + c) <=? j) && (j <? n - S i)) eqn:B1.
      + assert (B2 : (i <=? j) && (j <? i + S c) || (n - (i + S c) <=? j) && (j <? n - i) = true).
        { apply orb_true_iff in B1; rewrite !andb_true_iff, !Nat.leb_le, !Nat.ltb_lt in B1.
          apply orb_true_iff; rewrite !andb_true_iff, !Nat.leb_le, !Nat.ltb_lt; lia. }
        rewrite B2.
        apply orb_true_iff in B1; rewrite !andb_true_iff, !Nat.leb_le, !Nat.ltb_lt in B1.
        destruct (Nat.eqb_spec (n - j - 1) (n - i - 1)); [lia|].
        destruct (Nat.eqb_spec (n - j - 1) i); [lia|reflexivity].
      + apply orb_false_iff in B1; rewrite !andb_false_iff, !Nat.leb_gt, !Nat.ltb_ge in B1.
        destruct (Nat.eqb_spec j (n - i - 1)) as [->|N1].
        * assert (B2 : (i <=? n - i - 1) && (n - i - 1 <? i + S c) || (n - (i + S c) <=? n - i - 1) && (n - i - 1 <? n - i) = true).
          { apply orb_true_iff; rewrite !andb_true_iff, !Nat.leb_le, !Nat.ltb_lt; lia. }
          rewrite B2; replace (n - (n - i - 1) - 1) with i by lia; rewrite Ei; reflexivity.
        * destruct (Nat.eqb_spec j i) as [->|N2].
          -- assert (B2 : (i <=? i) && (i <? i + S c) || (n - (i + S c) <=? i) && (i <? n - i) = true).
             { apply orb_true_iff; rewrite !andb_true_iff, !Nat.leb_le, !Nat.ltb_lt; lia. }
             rewrite B2, Ej; reflexivity.
          -- assert (B2 : (i <=? j) && (j <? i + S c) || (n - (i + S c) <=? j) && (j <? n - i) = false).
             { apply orb_false_iff; rewrite !andb_false_iff, !Nat.leb_gt, !Nat.ltb_ge; lia. }
             rewrite B2; reflexivity.
  Qed.

  Lemma delete_split {A} i (l : list A) : i < List.length l ->
    exists l1 a l2, l = l1 ++ a :: l2 /\ List.length l1 = i /\ delete_at i l = l1 ++ l2 /\ forall b, replace_at i b l = l1 ++ b :: l2.
  Proof.
    intros H; destruct (split_nth i l H) as (l1 & a & l2 & -> & <-).
    exists l1, a, l2; split; [reflexivity|]; split; [reflexivity|].
    rewrite delete_at_app by exact H; rewrite firstn_exact, skipn_exact1; split; [reflexivity|].
    intros b; rewrite replace_at_app by exact H; rewrite firstn_exact, skipn_exact1; reflexivity.
  Qed.

  (** Every operation acts on the list of equations as it should, or changes nothing
      ([extend] keeps what was added before the failure). *)
  Theorem run_spec o x l x' r : holds x l -> run o x = (x', r) ->
    match r with
    | Ok _ => exists l', effect o l l' /\ holds x' l'
    | Err _ => x' = x \/ exists gs1 gs2 l', o = EExtend (gs1 ++ gs2) /\ effect (EExtend gs1) l l' /\ holds x' l'
    end.
  Proof.
    intros Hh; destruct o as [k g|g|gs|k g|g|k|s|k|p| |]; cbn [eop_run]; intros H.
    - apply (insert_spec _ l) in H; [|exact Hh]; destruct r as [u|er]; [|left; exact H].
      destruct H as (q & Hq & H); eexists; split; [|exact H].
      rewrite insert_at_app by apply insert_index_split.
      rewrite <- (firstn_skipn (insert_index (List.length l) k) l) at 1.
      apply eff_insert; [exact Hq|].
      pose proof (insert_index_split (List.length l) k) as Hi.
      rewrite firstn_length_le, skipn_length by exact Hi.
      unfold insert_index in Hi |- *; cbv zeta in Hi |- *.
      destruct (Z.ltb_spec k 0).
      + destruct (Z.le_gt_cases 0 (Z.of_nat (List.length l) + k)) as [Hk|Hk].
        * right; left; split; [lia|].
          intros He; apply (f_equal (@List.length _)) in He; rewrite skipn_length in He; cbn [List.length] in He; lia.
        * right; right; right; rewrite Z.max_l by lia; split; [reflexivity|]; lia.
      + destruct (Z.le_gt_cases k (Z.of_nat (List.length l))) as [Hk|Hk].
        * left; lia.
        * right; right; left; rewrite Z.min_r by lia; rewrite Nat2Z.id, skipn_all; split; [reflexivity|lia].
    - apply (append_spec _ l) in H; [|exact Hh]; destruct r as [u|er]; [|left; exact H].
      destruct H as (q & Hq & H); eexists; split; [constructor; exact Hq|exact H].
    - apply (extend_spec _ _ l) in H as (qs & H1 & H2); [|exact Hh]; destruct r as [u|er].
      + eexists; split; [constructor; exact H2|exact H1].
      + destruct H2 as (gs1 & gs2 & -> & _ & H2); right; exists gs1, gs2, (l ++ qs).
        split; [reflexivity|]; split; [constructor; exact H2|exact H1].
    - apply (set_spec _ l) in H; [|exact Hh]; destruct r as [u|er]; [|left; exact H].
      destruct H as (q & i & Hq & Hi & H).
      destruct (delete_split i l (proj1 Hi)) as (l1 & q0 & l2 & -> & <- & _ & Hr); rewrite Hr in H.
      eexists; split; [econstructor; eassumption|exact H].
    - unfold set_slice in H; destruct (parse_given V parse_text g); injection H as <- <-; left; reflexivity.
    - apply (del_spec _ l) in H; [|exact Hh]; destruct r as [u|er]; [|left; apply H].
      destruct H as (i & Hi & H).
      destruct (delete_split i l (proj1 Hi)) as (l1 & q0 & l2 & -> & <- & Hr & _); rewrite Hr in H.
      eexists; split; [econstructor; eassumption|exact H].
    - injection H as <- <-.
      eexists; split; [apply eff_del_slice|].
      rewrite <- remove_where_filter.
      destruct (holds_length x l Hh) as [-> ->]; destruct Hh as (H1 & H2 & H3); split; [|split]; cbn [trees texts].
      + rewrite map_remove_where, H1; reflexivity.
      + rewrite map_remove_where, H2; reflexivity.
      + intros q t Hin; apply H3; rewrite remove_where_filter in Hin.
        apply in_map_iff in Hin as ([j q'] & <- & Hin); apply filter_In in Hin as [Hin _].
        apply in_combine_r in Hin; exact Hin.
    - apply (pop_spec _ l) in H; [|exact Hh]; destruct r as [u|er]; [|left; apply H].
      destruct H as (i & Hi & H).
      destruct (delete_split i l (proj1 Hi)) as (l1 & q0 & l2 & -> & <- & Hr & _); rewrite Hr in H.
      eexists; split; [econstructor; eassumption|exact H].
    - unfold remove in H; destruct (find_at V p 0 (trees x)) as [j|] eqn:Ef; [|injection H as <- <-; left; reflexivity].
      apply find_at_spec in Ef as (t1 & e & t2 & Et & Hj & Hp & Hf); cbn [Nat.add] in Hj; subst j.
      apply (del_spec _ l) in H; [|exact Hh]; destruct r as [u|er]; [|left; apply H].
      destruct H as (i & Hi & H).
      destruct (delete_split i l (proj1 Hi)) as (l1 & q0 & l2 & -> & <- & Hr & _); rewrite Hr in H.
      assert (L : List.length t1 = List.length l1).
      { destruct Hh as (Hh & _); rewrite Hh in Et; apply (f_equal (@List.length _)) in Et.
        rewrite map_length, !app_length in Et; cbn [List.length] in Et.
        destruct Hi as [Hi [Hk|Hk]]; rewrite ?app_length in Hi; rewrite ?app_length in Hk; cbn [List.length] in Hi, Hk; lia. }
      eexists; split; [|exact H].
      destruct Hh as (Hh & _); rewrite Hh, map_app in Et; cbn [map] in Et.
      assert (L' : List.length (map (tree V) l1) = List.length t1) by (rewrite map_length; auto).
      apply app_inj_length in Et; [|exact L']. 
      destruct Et as [E1 E2]; injection E2 as E2 E3.
      constructor; [congruence|].
      rewrite <- E1 in Hf; rewrite Forall_map in Hf; exact Hf.
    - unfold clear in H; destruct (clear_spec (S (List.length (trees x))) x l Hh) as (x1 & Hc & Hn).
      + rewrite (proj1 (holds_length x l Hh)); lia.
      + rewrite Hc in H; injection H as <- <-; exists []; split; [constructor|exact Hn].
    - unfold reverse in H; cbv zeta in H.
      pose proof (proj1 (holds_length x l Hh)) as Hl; rewrite Hl in H.
      destruct (swaps_spec (List.length l) (List.length l / 2) 0 x l Hh eq_refl) as (x1 & l' & Hs & Hh' & Hl' & Hn).
      { cbn [Nat.add]; apply Nat.mul_div_le; lia. }
      rewrite Hs in H; injection H as <- <-; exists l'; split; [|exact Hh'].
      set (n := List.length l) in *.
      assert (Hhalf : n = 2 * (n / 2) \/ n = 2 * (n / 2) + 1).
      { pose proof (Nat.div_mod n 2); pose proof (Nat.mod_upper_bound n 2); lia. }
      cbn [Nat.add] in Hn.
      assert (Hmid : forall j, j < n -> ((0 <=? j) && (j <? n / 2) || (n - n / 2 <=? j) && (j <? n - 0) = negb (j =? n - j - 1))).
      { intros j Hj; destruct (Nat.eqb_spec j (n - j - 1)); cbn [negb].
        - apply orb_false_iff; rewrite !andb_false_iff, !Nat.leb_gt, !Nat.ltb_ge; lia.
        - apply orb_true_iff; rewrite !andb_true_iff, !Nat.leb_le, !Nat.ltb_lt; lia. }
      apply eff_reverse.
      + apply (nth_error_ext_len).
        * rewrite rev_length, !map_length; exact Hl'.
        * intros j Hj; rewrite map_length, Hl' in Hj.
          rewrite nth_error_map, Hn, Hmid by exact Hj.
          rewrite nth_error_rev by (rewrite map_length; exact Hj); rewrite map_length; fold n.
          rewrite nth_error_map.
          replace (n - S j) with (n - j - 1) by lia.
          destruct (Nat.eqb_spec j (n - j - 1)) as [He|He]; cbn [negb].
          -- rewrite <- He; reflexivity.
          -- destruct (nth_error l (n - j - 1)); reflexivity.
      + intros i q Hq.
        assert (Hi : i < n) by (rewrite <- Hl'; apply nth_error_Some; congruence).
        rewrite Hn, Hmid in Hq by exact Hi.
        fold n; destruct (i =? n - i - 1); cbn [negb] in Hq; [exact Hq|].
        destruct (nth_error l (n - i - 1)); [injection Hq as <-; reflexivity|discriminate].
  Qed.
End Proofs.
