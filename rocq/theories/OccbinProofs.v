(** Occasionally binding constraints: lemmas. *)
From Verif Require Import Base Nd NdProofs SimSpec Mat MatProofs Indexing Occbin OccbinSpec.

(** ** Spells *)

Lemma changes_fold t : forall l i b, t < i -> fold_left (fun r s => if fst s <=? t then snd s else r) (changes i b l) b = b.
Proof.
  intros l i b Hi.
  assert (G : forall l i c, t < i -> forall r, fold_left (fun r s => if fst s <=? t then snd s else r) (changes i c l) r = r).
  { clear; induction l as [|a l IH]; intros i c Hi r; cbn [changes fold_left]; [reflexivity|].
    destruct (Bool.eqb a c); [apply IH; lia|]; cbn [fold_left fst snd]; destruct (Nat.leb_spec i t); [lia|apply IH; lia]. }
  apply G; exact Hi.
Qed.
Lemma changes_at : forall l i b t, i <= t -> t < i + List.length l ->
  fold_left (fun r s => if fst s <=? t then snd s else r) (changes i b l) b = nth (t - i) l false.
Proof.
  induction l as [|a l IH]; intros i b t Hi Ht; cbn [List.length changes] in *; [lia|].
  destruct (Bool.eqb a b) eqn:E.
  - apply Bool.eqb_prop in E as ->; destruct (Nat.eq_dec t i) as [->|N].
    + rewrite changes_fold by lia; rewrite Nat.sub_diag; reflexivity.
    + rewrite IH by lia; replace (t - i) with (S (t - S i)) by lia; reflexivity.
  - cbn [fold_left fst snd]; rewrite (proj2 (Nat.leb_le i t)) by lia; destruct (Nat.eq_dec t i) as [->|N].
    + rewrite changes_fold by lia; rewrite Nat.sub_diag; reflexivity.
    + rewrite IH by lia; replace (t - i) with (S (t - S i)) by lia; reflexivity.
Qed.
Lemma changes_alternate : forall l i s b, s < i -> alternate ((s, b) :: changes i b l).
Proof.
  induction l as [|a l IH]; intros i s b Hs; cbn [changes].
  - intros k Hk; cbn in Hk; lia.
  - destruct (Bool.eqb a b) eqn:E; [apply IH; lia|].
    intros [|k] Hk; [cbn; split; [exact Hs|]; destruct a, b; cbn in *; congruence|].
    specialize (IH (S i) i a (Nat.lt_succ_diag_r i) k); cbn [List.length nth] in *; apply IH; lia.
Qed.
Lemma last_changes (f : nat -> bool) : forall l i s b, s < i -> (forall t, s <= t < i -> f t = b) ->
  (forall j, j < List.length l -> f (i + j) = nth j l false) ->
  let p := last ((s, b) :: changes i b l) (0, false) in
  s <= fst p < i + List.length l /\ (forall t, fst p <= t < i + List.length l -> f t = snd p) /\
  (s < fst p -> f (fst p - 1) = negb (snd p)).
Proof.
  induction l as [|a l IH]; intros i s b Hs Hb Hl; cbn [changes List.length] in *.
  - cbn; repeat split; try lia; intros t Ht; apply Hb; lia.
  - assert (Ha : f i = a) by (rewrite <- (Nat.add_0_r i); exact (Hl 0 ltac:(lia))).
    assert (Hl' : forall j, j < List.length l -> f (S i + j) = nth j l false).
    { intros j Hj; replace (S i + j) with (i + S j) by lia; apply (Hl (S j)); lia. }
    destruct (Bool.eqb a b) eqn:E.
    + apply Bool.eqb_prop in E as ->.
      destruct (IH (S i) s b) as (A & B & C); [lia| |exact Hl'|].
      { intros t Ht; destruct (Nat.eq_dec t i) as [->|]; [exact Ha|apply Hb; lia]. }
      cbv zeta; repeat split; try lia; [|exact C]; intros t Ht; apply B; lia.
    + destruct (IH (S i) i a) as (A & B & C); [lia| |exact Hl'|].
      { intros t Ht; replace t with i by lia; exact Ha. }
      change (last ((s, b) :: (i, a) :: changes (S i) a l) (0, false)) with (last ((i, a) :: changes (S i) a l) (0, false)).
      set (p := last ((i, a) :: changes (S i) a l) (0, false)) in *; cbv zeta; repeat split; try lia; [intros t Ht; apply B; lia|].
      intros _; destruct (Nat.eq_dec (fst p) i) as [Ep|Np]; [|apply C; lia].
      rewrite Ep, (Hb (i - 1)) by lia; rewrite <- (B i) by lia; rewrite Ha; destruct a, b; cbn in *; congruence.
Qed.

(** What is read from a vector with an entry for each of [p] periods and one more. *)
Lemma locate_spells vec p : List.length vec = S p -> 1 <= p ->
  exists spells w, locate vec = Ok (spells, w) /\ alternate spells /\ fst (nth 0 spells (1, false)) = 0 /\
    (forall t, t < p -> regime_at spells t = nth t vec false) /\
    final_spell vec p (last_start spells) /\ snd (last spells (0, false)) = nth (p - 1) vec false.
Proof.
  intros HL Hp; destruct vec as [|b rest]; [discriminate|]; cbn [List.length] in HL; injection HL as HL.
  destruct (exists_last (l := rest)) as (l & z & ->); [intros ->; cbn in HL; lia|].
  unfold locate; rewrite removelast_last; rewrite app_length in HL; cbn in HL.
  set (spells := (0, b) :: changes 1 b l); exists spells, (regime_warning spells); split; [reflexivity|].
  assert (N : forall t, t < p -> nth t (b :: l ++ [z]) false = nth t (b :: l) false).
  { intros t Ht; change (b :: l ++ [z]) with ((b :: l) ++ [z]); apply app_nth1; cbn; lia. }
  assert (Q := last_changes (fun t => nth t (b :: l) false) l 1 0 b Nat.lt_0_1).
  destruct Q as (A & B & C); [intros t Ht; replace t with 0 by lia; reflexivity|reflexivity|].
  fold spells in A, B, C; split; [apply changes_alternate; lia|]; split; [reflexivity|]; split.
  - intros t Ht; rewrite N by exact Ht; unfold regime_at, spells; cbn [fold_left fst snd Nat.leb].
    destruct t as [|t]; [apply (changes_fold 0); lia|].
    rewrite changes_at by lia; cbn [nth]; f_equal; lia.
  - unfold last_start; split; [split; [lia|split]|].
    + intros t Ht; rewrite !N by lia; rewrite !B by lia; reflexivity.
    + intros H0; rewrite !N by lia; rewrite (B (fst _)) by lia; apply C; exact H0.
    + rewrite N by lia; rewrite B by lia; reflexivity.
Qed.
Lemma final_spell_unique hypo p s s' : final_spell hypo p s -> final_spell hypo p s' -> s = s'.
Proof.
  assert (W : forall s s', final_spell hypo p s -> final_spell hypo p s' -> s < s' -> False).
  { clear; intros s s' (A & B & C) (A' & B' & C') L.
    specialize (C' ltac:(lia)); rewrite (B (s' - 1)), (B s') in C' by lia; destruct (nth s hypo false); discriminate. }
  intros H H'; destruct (Nat.lt_trichotomy s s') as [L|[E|L]]; [destruct (W _ _ H H' L)|exact E|destruct (W _ _ H' H L)].
Qed.

Lemma skipn_next {A} (l : list A) : forall i a l', skipn i l = a :: l' -> skipn (S i) l = l'.
Proof.
  induction l as [|x l IH]; intros [|i] a l' H; cbn [skipn] in H; try discriminate.
  - injection H as _ ->; reflexivity.
  - exact (IH i a l' H).
Qed.

(** ** Paths *)

Section Paths.
  Variable F : Type.
  Variable O : rops F.
  Hypothesis RT : is_ring O.
  Let RT' : ring_theory (r0 O) (r1 O) (radd O) (rmul O) (rsub O) (ropp O) eq := RT.
  Add Ring OccRing : RT'.
  Variable inv : nat -> mat F -> res (mat F).
  Variable n k : nat.
  Hypothesis Hinv : inverts F O n inv.
  Local Notation mmul := (mmul F O).
  Local Notation madd := (madd F O).
  Local Notation mopp := (mopp F O).
  Local Notation mvec := (mvec F O).
  Local Notation vadd := (vadd F O).
  Local Notation vopp := (vopp F O).
  Local Notation vzero := (vzero F O).
  Local Notation veq := (veq F).

  Lemma inv_right m m' : inv n m = Ok m' -> meq F n n (mmul n m m') (mid F O).
  Proof. intros H i j Hi Hj; exact (Hinv m m' H i j Hi Hj). Qed.

  Lemma equations_veq q before now after shocks before' now' after' :
    veq n before before' -> veq n now now' -> veq n after after' ->
    equations F O n k q before' now' after' shocks -> equations F O n k q before now after shocks.
  Proof.
    intros A B C H i Hi; rewrite <- (H i Hi); f_equal; f_equal; f_equal; [f_equal|]; apply (rsum_ext F O);
      intros j Hj; f_equal; [apply C|apply B|apply A]; exact Hj.
  Qed.

  (** One period under a rule made from the next period's rule. *)
  Lemma period_ok q P D im P' D' y0 y1 y2 e :
    inv n (madd (mmul n (sA F q) P) (sB F q)) = Ok im ->
    P' = mopp (mmul n im (sC F q)) ->
    veq n D' (vopp (mvec n im (vadd (mvec n (sA F q) D) (sD F q)))) ->
    veq n y1 (vadd (vadd (mvec n P' y0) D') (mvec k (mopp (mmul n im (sE F q))) e)) ->
    veq n y2 (vadd (mvec n P y1) D) ->
    equations F O n k q y0 y1 y2 e.
  Proof.
    intros Ei -> HD H1 H2.
    set (m := madd (mmul n (sA F q) P) (sB F q)) in *.
    assert (I := inv_right _ _ Ei).
    assert (M1 : veq n (mvec n m y1) (vopp (vadd (vadd (mvec n (sC F q) y0) (vadd (mvec n (sA F q) D) (sD F q))) (mvec k (sE F q) e)))).
    { assert (Y : veq n y1 (vopp (mvec n im (vadd (vadd (mvec n (sC F q) y0) (vadd (mvec n (sA F q) D) (sD F q))) (mvec k (sE F q) e))))).
      { set (w := vadd (mvec n (sA F q) D) (sD F q)) in *.
        intros i Hi; rewrite (H1 i Hi).
        change (radd O (radd O (mvec n (mopp (mmul n im (sC F q))) y0 i) (D' i)) (mvec k (mopp (mmul n im (sE F q))) e i) =
          ropp O (mvec n im (vadd (vadd (mvec n (sC F q) y0) w) (mvec k (sE F q) e)) i)).
        rewrite (HD i Hi), (mvec_opp_l F O RT n n _ _ i Hi), (mvec_opp_l F O RT n k _ _ i Hi).
        unfold Mat.vopp; rewrite (mvec_mmul' F O RT n n n im (sC F q) y0 i Hi), (mvec_mmul' F O RT n n k im (sE F q) e i Hi).
        rewrite (mvec_add_r F O RT n n im _ _ i Hi).
        change (vadd (mvec n im (vadd (mvec n (sC F q) y0) w)) (mvec n im (mvec k (sE F q) e)) i) with
          (radd O (mvec n im (vadd (mvec n (sC F q) y0) w) i) (mvec n im (mvec k (sE F q) e) i)).
        rewrite (mvec_add_r F O RT n n im _ _ i Hi); unfold Mat.vadd at 1; ring. }
      intros i Hi; rewrite (mvec_proper F O n n m m (reflexivity _) _ _ Y i Hi), (mvec_opp_r F O RT n n m _ i Hi).
      unfold Mat.vopp at 1 2; f_equal; rewrite <- (mvec_mmul' F O RT n n n m im _ i Hi).
      rewrite (mvec_proper F O n n _ _ I _ _ (reflexivity _) i Hi); apply (mvec_id F O RT n _ i Hi). }
    intros i Hi; specialize (M1 i Hi).
    change (mvec n m y1 i = ropp O (radd O (radd O (mvec n (sC F q) y0 i) (radd O (mvec n (sA F q) D i) (sD F q i))) (mvec k (sE F q) e i))) in M1.
    unfold m in M1; rewrite (mvec_add_l F O RT n n _ _ _ i Hi) in M1; unfold Mat.vadd at 1 in M1; rewrite (mvec_mmul' F O RT n n n _ _ _ i Hi) in M1.
    change (radd O (radd O (radd O (radd O (mvec n (sA F q) y2 i) (mvec n (sB F q) y1 i)) (mvec n (sC F q) y0 i)) (mvec k (sE F q) e i)) (sD F q i) = r0 O).
    rewrite (mvec_proper F O n n (sA F q) _ (reflexivity _) _ _ H2 i Hi), (mvec_add_r F O RT n n _ _ _ i Hi); unfold Mat.vadd at 1.
    transitivity (radd O (radd O (mvec n (sA F q) (mvec n P y1) i) (mvec n (sB F q) y1 i)) (radd O (radd O (mvec n (sC F q) y0 i) (radd O (mvec n (sA F q) D i) (sD F q i))) (mvec k (sE F q) e i))); [ring|].
    rewrite M1; ring.
  Qed.
  Lemma zero_shock (E : mat F) : veq n (mvec k E vzero) vzero.
  Proof. apply (mvec_zero_r F O RT). Qed.

  (** The rule of the reference regime. *)
  Lemma reference_ok q gy gu y0 y1 y2 e : solves F O n k q gy gu ->
    veq n y1 (vadd (mvec n gy y0) (mvec k gu e)) -> veq n y2 (mvec n gy y1) -> equations F O n k q y0 y1 y2 e.
  Proof.
    intros (S1 & S2 & S3) H1 H2.
    assert (M1 : meq F n n (madd (madd (mmul n (sA F q) (mmul n gy gy)) (mmul n (sB F q) gy)) (sC F q)) (mzero F O)) by (intros i j Hi Hj; exact (S1 i j Hi Hj)).
    assert (M2 : meq F n k (madd (mmul n (madd (mmul n (sA F q) gy) (sB F q)) gu) (sE F q)) (mzero F O)) by (intros i j Hi Hj; exact (S2 i j Hi Hj)).
    intros i Hi.
    change (radd O (radd O (radd O (radd O (mvec n (sA F q) y2 i) (mvec n (sB F q) y1 i)) (mvec n (sC F q) y0 i)) (mvec k (sE F q) e i)) (sD F q i) = r0 O).
    rewrite (S3 i Hi), (mvec_proper F O n n (sA F q) _ (reflexivity _) _ _ H2 i Hi), <- (mvec_mmul' F O RT n n n _ _ _ i Hi).
    assert (X : radd O (mvec n (mmul n (sA F q) gy) y1 i) (mvec n (sB F q) y1 i) = mvec n (madd (mmul n (sA F q) gy) (sB F q)) y1 i)
      by (rewrite (mvec_add_l F O RT n n _ _ _ i Hi); reflexivity).
    rewrite X, (mvec_proper F O n n (madd (mmul n (sA F q) gy) (sB F q)) _ (reflexivity _) _ _ H1 i Hi), (mvec_add_r F O RT n n _ _ _ i Hi); unfold Mat.vadd at 1.
    assert (A1 : radd O (mvec n (madd (mmul n (sA F q) gy) (sB F q)) (mvec n gy y0) i) (mvec n (sC F q) y0 i) = r0 O).
    { rewrite <- (mvec_mmul' F O RT n n n _ _ _ i Hi).
      transitivity (mvec n (madd (mmul n (madd (mmul n (sA F q) gy) (sB F q)) gy) (sC F q)) y0 i); [rewrite (mvec_add_l F O RT n n _ _ _ i Hi); reflexivity|].
      transitivity (mvec n (mzero F O) y0 i); [|apply (mvec_zero_l F O RT n n y0 i Hi)].
      refine (mvec_proper F O n n _ _ _ _ _ (reflexivity _) i Hi); rewrite <- M1; intros a b Ha Hb; unfold Mat.madd at 1 3; f_equal.
      rewrite (mmul_add_l F O RT n n n _ _ _ a b Ha Hb); unfold Mat.madd; f_equal; apply (mmul_assoc_entry F O RT). }
    assert (A2 : radd O (mvec n (madd (mmul n (sA F q) gy) (sB F q)) (mvec k gu e) i) (mvec k (sE F q) e i) = r0 O).
    { rewrite <- (mvec_mmul' F O RT n n k _ _ _ i Hi).
      transitivity (mvec k (madd (mmul n (madd (mmul n (sA F q) gy) (sB F q)) gu) (sE F q)) e i); [rewrite (mvec_add_l F O RT n k _ _ _ i Hi); reflexivity|].
      transitivity (mvec k (mzero F O) e i); [|apply (mvec_zero_l F O RT n k e i Hi)].
      exact (mvec_proper F O n k _ _ M2 _ _ (reflexivity _) i Hi). }
    set (u := mvec n (madd (mmul n (sA F q) gy) (sB F q)) (mvec n gy y0) i) in *.
    set (v := mvec n (madd (mmul n (sA F q) gy) (sB F q)) (mvec k gu e) i) in *.
    transitivity (radd O (radd O u (mvec n (sC F q) y0 i)) (radd O v (mvec k (sE F q) e i))); [ring|]; rewrite A1, A2; ring.
  Qed.

  Definition no_rule : mat F * vec F := (mzero F O, vzero).

  (** The rules that are computed backwards. *)
  Lemma roll_spec sys : forall i later P D m R m', later <> [] -> hd no_rule later = (P, D) ->
    roll F O inv n sys i later P D m = Ok (R, m') ->
    skipn i R = later /\ (i = 0 -> m' = m) /\
    forall t, t < i -> exists im, inv n (madd (mmul n (sA F (sys t)) (fst (nth (S t) R no_rule))) (sB F (sys t))) = Ok im /\
      fst (nth t R no_rule) = mopp (mmul n im (sC F (sys t))) /\
      snd (nth t R no_rule) = vopp (mvec n im (vadd (mvec n (sA F (sys t)) (snd (nth (S t) R no_rule))) (sD F (sys t)))) /\
      (t = 0 -> m' = im).
  Proof.
    induction i as [|i IH]; intros later P D m R m' Hne Hhd H; cbn [roll] in H.
    - injection H as <- <-; split; [reflexivity|]; split; [reflexivity|]; intros; lia.
    - destruct (inv n (madd (mmul n (sA F (sys i)) P) (sB F (sys i)))) as [im|e] eqn:Ei; [|discriminate]; cbn [bind] in H.
      apply IH in H; [|discriminate|reflexivity]; destruct H as (Sk & M0 & Rt).
      set (P' := mopp (mmul n im (sC F (sys i)))) in *.
      set (D' := vopp (mvec n im (vadd (mvec n (sA F (sys i)) D) (sD F (sys i))))) in *.
      assert (Ri : forall j, nth (i + j) R no_rule = nth j ((P', D') :: later) no_rule).
      { intros j; rewrite <- Sk; clear; revert R; induction i as [|i IH]; intros R; [reflexivity|].
        destruct R as [|r R]; [cbn; destruct j; reflexivity|cbn [Nat.add nth skipn]; apply IH]. }
      split; [|split; [discriminate|]].
      + exact (skipn_next _ _ _ _ Sk).
      + intros t Ht; destruct (Nat.eq_dec t i) as [->|Nt]; [|apply Rt; lia].
        exists im; assert (R0 := Ri 0); assert (R1 := Ri 1); rewrite Nat.add_0_r in R0; rewrite Nat.add_1_r in R1; cbn [nth] in R0, R1.
        rewrite R0, R1; assert (E1 : nth 0 later no_rule = (P, D)) by (destruct later; [congruence|exact Hhd]); rewrite E1; cbn [fst snd].
        split; [exact Ei|]; split; [reflexivity|]; split; [reflexivity|]; intros ->; apply M0; reflexivity.
  Qed.

  Lemma follow_length gy : forall count rules h, List.length (follow F O n gy rules count h) = count.
  Proof. induction count as [|c IH]; intros rules h; cbn [follow]; [reflexivity|]; destruct rules as [|[P D] rs]; cbn [List.length]; rewrite IH; reflexivity. Qed.
  Lemma follow_nth gy d : forall count rules h t, t < count ->
    nth (S t) (h :: follow F O n gy rules count h) d =
    match nth_error rules t with
    | Some (P, D) => vadd (mvec n P (nth t (h :: follow F O n gy rules count h) d)) D
    | None => mvec n gy (nth t (h :: follow F O n gy rules count h) d)
    end.
  Proof.
    induction count as [|c IH]; intros rules h t Ht; [lia|]; cbn [follow].
    destruct rules as [|[P D] rs].
    - destruct t as [|t]; [reflexivity|].
      specialize (IH [] (mvec n gy h) t ltac:(lia)).
      change (nth (S (S t)) (h :: mvec n gy h :: follow F O n gy [] c (mvec n gy h)) d) with (nth (S t) (mvec n gy h :: follow F O n gy [] c (mvec n gy h)) d).
      rewrite IH; destruct t; reflexivity.
    - destruct t as [|t]; [reflexivity|].
      specialize (IH rs (vadd (mvec n P h) D) t ltac:(lia)).
      change (nth (S (S t)) (h :: vadd (mvec n P h) D :: follow F O n gy rs c (vadd (mvec n P h) D)) d) with (nth (S t) (vadd (mvec n P h) D :: follow F O n gy rs c (vadd (mvec n P h) D)) d).
      rewrite IH; reflexivity.
  Qed.

  (** The regime whose equations hold in a period: the hypothesised ones before the last
      spell, with [final] just before it, and the reference regime in it. *)
  Definition in_force (sys : nat -> system F) (final ref : system F) (start t : nat) : system F :=
    if S t <? start then sys t else if S t =? start then final else ref.

  Lemma skipn_nth {A} (l : list A) i j d : nth j (skipn i l) d = nth (i + j) l d.
  Proof. revert l; induction i as [|i IH]; intros l; [reflexivity|]; destruct l; [destruct j; reflexivity|apply IH]. Qed.
  Lemma skipn_nth_error {A} (l : list A) i j : nth_error (skipn i l) j = nth_error l (i + j).
  Proof. revert l; induction i as [|i IH]; intros l; [reflexivity|]; destruct l; [destruct j; reflexivity|apply IH]. Qed.

  Lemma guess_ok gy gu sys final ref start periods init e rows : solves F O n k ref gy gu ->
    guess_path F O inv n k gy gu sys final start periods init e = Ok rows ->
    List.length rows = S periods /\
    (forall t, t < periods -> equations F O n k (in_force sys final ref start t) (value F init rows t) (value F init rows (S t)) (value F init rows (S (S t))) (impulse F O e t)) /\
    (forall t, 1 <= t -> start <= t -> t <= periods -> value F init rows (S t) = mvec n gy (value F init rows t)) /\
    (start = 0 -> value F init rows 1 = vadd (mvec n gy init) (mvec k gu e)).
  Proof.
    intros Sol H; unfold guess_path in H; destruct start as [|b].
    - set (h := vadd (mvec n gy init) (mvec k gu e)) in *; injection H as <-.
      split; [cbn [List.length]; rewrite follow_length; reflexivity|].
      assert (Stp : forall t, 1 <= t -> t <= periods -> value F init (h :: follow F O n gy [] periods h) (S t) = mvec n gy (value F init (h :: follow F O n gy [] periods h) t)).
      { intros [|t] H1 Ht; [lia|]; unfold value; rewrite (follow_nth gy init) by lia; destruct t; reflexivity. }
      split; [|split; [intros t H1 _ Ht; apply Stp; assumption|reflexivity]].
      intros t Ht; unfold in_force; cbn [Nat.ltb Nat.leb Nat.eqb].
      apply (reference_ok ref gy gu _ _ _ _ Sol); [|rewrite Stp by lia; reflexivity].
      destruct t as [|t]; [reflexivity|].
      rewrite Stp by lia; intros i Hi; unfold Mat.vadd; cbn [impulse]; rewrite (mvec_zero_r F O RT n k gu i Hi : mvec k gu (fun _ => r0 O) i = r0 O); ring.
    - destruct (inv n (madd (mmul n (sA F final) gy) (sB F final))) as [im|x] eqn:Ei; [|discriminate]; cbn [bind] in H.
      set (P := mopp (mmul n im (sC F final))) in *; set (D := vopp (mvec n im (sD F final))) in *.
      destruct (roll F O inv n sys b [(P, D)] P D im) as [[R m]|x] eqn:Er; [|discriminate]; cbn [bind] in H.
      destruct (roll_spec sys b [(P, D)] P D im R m ltac:(discriminate) eq_refl Er) as (Sk & M0 & Rt); clear Er.
      destruct R as [|[P0 D0] rs]; [discriminate|]; injection H as <-.
      set (E := mopp (mmul n m (sE F (if 0 <? b then sys 0 else final)))) in *.
      set (h := vadd (vadd (mvec n P0 init) D0) (mvec k E e)) in *.
      set (R := (P0, D0) :: rs) in *; set (rows := h :: follow F O n gy rs periods h).
      split; [cbn [List.length]; unfold rows; cbn [List.length]; rewrite follow_length; reflexivity|].
      assert (Lb : nth b R no_rule = (P, D)).
      { rewrite <- (Nat.add_0_r b), <- skipn_nth, Sk; reflexivity. }
      assert (Len : List.length R = S b).
      { assert (X := f_equal (@List.length _) Sk); rewrite skipn_length in X; change (List.length [(P, D)]) with 1 in X; lia. }
      (* steps of the path *)
      assert (In : forall t, 1 <= t -> t <= b -> t <= periods -> value F init rows (S t) = vadd (mvec n (fst (nth t R no_rule)) (value F init rows t)) (snd (nth t R no_rule))).
      { intros [|t] H1 Hb Ht; [lia|]; unfold value at 1; unfold rows; rewrite (follow_nth gy init) by lia.
        assert (Er : nth_error rs t = Some (nth (S t) R no_rule)).
        { unfold R; cbn [nth]; apply nth_error_nth'; unfold R in Len; cbn in Len; lia. }
        rewrite Er; destruct (nth (S t) R no_rule); cbn [fst snd]; destruct t; reflexivity. }
      assert (Out : forall t, 1 <= t -> S b <= t -> t <= periods -> value F init rows (S t) = mvec n gy (value F init rows t)).
      { intros [|t] H1 Hb Ht; [lia|]; unfold value at 1; unfold rows; rewrite (follow_nth gy init) by lia.
        assert (Er : nth_error rs t = None) by (apply nth_error_None; unfold R in Len; cbn in Len; lia).
        rewrite Er; destruct t; reflexivity. }
      assert (First : veq n (value F init rows 1) (vadd (vadd (mvec n (fst (nth 0 R no_rule)) init) (snd (nth 0 R no_rule))) (mvec k E e))) by reflexivity.
      (* a period with a rule, whatever the shock *)
      assert (Now : forall t E', 1 <= t -> t <= b -> t <= periods ->
        veq n (value F init rows (S t)) (vadd (vadd (mvec n (fst (nth t R no_rule)) (value F init rows t)) (snd (nth t R no_rule))) (mvec k E' (impulse F O e t)))).
      { intros t E' H1 Hb Ht i Hi; rewrite In by assumption; unfold Mat.vadd at 2.
        destruct t as [|t]; [lia|]; cbn [impulse]; rewrite (mvec_zero_r F O RT n k E' i Hi : mvec k E' (fun _ => r0 O) i = r0 O); ring. }
      split; [|split; [intros t H1 H2 Ht; apply Out; assumption|discriminate]].
      intros t Ht; unfold in_force; destruct (Nat.ltb_spec (S t) (S b)) as [L|L].
      + destruct (Rt t ltac:(lia)) as (imt & Et & Pt & Dt & M1).
        apply (period_ok (sys t) (fst (nth (S t) R no_rule)) (snd (nth (S t) R no_rule)) imt (fst (nth t R no_rule)) (snd (nth t R no_rule))).
        * exact Et.
        * exact Pt.
        * rewrite Dt; reflexivity.
        * destruct t as [|t]; [|apply Now; lia].
          cbn [impulse]; rewrite <- (M1 eq_refl); unfold value at 2; intros i Hi; rewrite (First i Hi); unfold E.
          rewrite (proj2 (Nat.ltb_lt 0 b)) by lia; reflexivity.
        * rewrite In by lia; reflexivity.
      + destruct (Nat.eqb_spec (S t) (S b)) as [Eb|Nb].
        * injection Eb as ->.
          apply (period_ok final gy vzero im (fst (nth b R no_rule)) (snd (nth b R no_rule))); rewrite ?Lb; cbn [fst snd].
          { exact Ei. }
          { reflexivity. }
          { unfold D; intros i Hi; unfold Mat.vopp; f_equal; refine (mvec_proper F O n n im im (reflexivity _) _ _ _ i Hi).
            intros j Hj; unfold Mat.vadd; rewrite (mvec_zero_r F O RT n n _ j Hj); unfold Mat.vzero; ring. }
          { destruct b as [|b].
            - cbn [impulse]; intros i Hi; rewrite (First i Hi); rewrite Lb; cbn [fst snd]; unfold E; cbn [Nat.ltb Nat.leb].
              rewrite (M0 eq_refl); reflexivity.
            - intros i Hi; rewrite (Now (S b) (mopp (mmul n im (sE F final))) ltac:(lia) ltac:(lia) ltac:(lia) i Hi), Lb; reflexivity. }
          { intros i Hi; rewrite Out by lia; unfold Mat.vadd, Mat.vzero; ring. }
        * apply (reference_ok ref gy gu _ _ _ _ Sol); [|rewrite Out by lia; reflexivity].
          destruct t as [|t]; [lia|]; rewrite Out by lia; intros i Hi; unfold Mat.vadd; cbn [impulse].
          rewrite (mvec_zero_r F O RT n k gu i Hi : mvec k gu (fun _ => r0 O) i = r0 O); ring.
  Qed.
End Paths.
