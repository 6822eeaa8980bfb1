(** Occasionally binding constraints: what was foreseen comes true without shocks. *)
From Verif Require Import Base Nd NdProofs SimSpec Mat MatProofs Indexing Occbin OccbinSpec OccbinProofs OccbinProofs2.

(** ** Spells, one period later *)

Lemma tl_nth {A} (l : list A) z d t : S t < List.length l -> nth t (tl l ++ [z]) d = nth (S t) l d.
Proof. destruct l as [|a l]; cbn [List.length tl nth]; intros H; [lia|]; apply app_nth1; lia. Qed.
Lemma final_spell_later hypo p s : List.length hypo = S p -> final_spell hypo p s -> nth (p - 1) hypo false = false -> nth p hypo false = false ->
  final_spell (tl hypo ++ [false]) p (s - 1) /\ nth (p - 1) (tl hypo ++ [false]) false = false.
Proof.
  intros L (A & B & C) N1 N2.
  assert (E : forall t, t < p -> nth t (tl hypo ++ [false]) false = nth (S t) hypo false) by (intros t Ht; apply tl_nth; lia).
  assert (R : forall t, s <= t <= p -> nth t hypo false = false).
  { intros t Ht; destruct (Nat.eq_dec t p) as [->|]; [exact N2|]; rewrite B by lia; rewrite <- (B (p - 1)) by lia; exact N1. }
  split; [split; [lia|split]|rewrite E by lia; replace (S (p - 1)) with p by lia; exact N2].
  - intros t Ht; rewrite !E, !R by lia; reflexivity.
  - intros Hs; rewrite !E by lia; replace (S (s - 1 - 1)) with (s - 1) by lia; replace (S (s - 1)) with s by lia; apply C; lia.
Qed.
Lemma locate_later hypo p : List.length hypo = S p -> 1 <= p -> nth (p - 1) hypo false = false -> nth p hypo false = false ->
  exists l w l' w', locate hypo = Ok (l, w) /\ locate (tl hypo ++ [false]) = Ok (l', w') /\ last_start l' = last_start l - 1 /\ last_start l < p /\
    forall t, last_start l <= t <= p -> nth t hypo false = false.
Proof.
  intros L Hp N1 N2.
  assert (L' : List.length (tl hypo ++ [false]) = S p) by (rewrite app_length; destruct hypo; cbn in *; lia).
  destruct (locate_spells hypo p L Hp) as (l & w & E & _ & _ & _ & Fs & _).
  destruct (locate_spells (tl hypo ++ [false]) p L' Hp) as (l' & w' & E' & _ & _ & _ & Fs' & _).
  exists l, w, l', w'; repeat split; auto.
  - apply (final_spell_unique _ _ _ _ Fs'), (final_spell_later hypo p _ L Fs N1 N2).
  - apply Fs.
  - intros t Ht; destruct Fs as (_ & B & _); destruct (Nat.eq_dec t p) as [->|]; [exact N2|]; rewrite B by lia; rewrite <- (B (p - 1)) by lia; exact N1.
Qed.

(** ** The path, one period later *)

Section Later.
  Variable F : Type.
  Variable O : rops F.
  Hypothesis RT : is_ring O.
  Let RT' : ring_theory (r0 O) (r1 O) (radd O) (rmul O) (rsub O) (ropp O) eq := RT.
  Add Ring LaterRing : RT'.
  Variable inv : nat -> mat F -> res (mat F).
  Variable n k : nat.
  Local Notation mmul := (mmul F O).
  Local Notation madd := (madd F O).
  Local Notation mopp := (mopp F O).
  Local Notation mvec := (mvec F O).
  Local Notation vadd := (vadd F O).
  Local Notation vopp := (vopp F O).
  Local Notation veq := (veq F).

  Lemma mvec_veq A v w : veq n v w -> veq n (mvec n A v) (mvec n A w).
  Proof. intros H i Hi; apply rsum_ext; intros j Hj; rewrite H by exact Hj; reflexivity. Qed.
  (** Paths that start with the same values go on with the same values. *)
  Lemma follow_veq gy d : forall count rules h h', veq n h h' -> forall t, veq n (nth t (follow F O n gy rules count h) d) (nth t (follow F O n gy rules count h') d).
  Proof.
    induction count as [|c IH]; intros rules h h' H t; cbn [follow]; [destruct t; reflexivity|].
    destruct rules as [|[P D] rs].
    - destruct t as [|t]; cbn [nth]; [apply mvec_veq, H|apply IH, mvec_veq, H].
    - assert (G : veq n (vadd (mvec n P h) D) (vadd (mvec n P h') D)) by (intros i Hi; unfold Mat.vadd; rewrite (mvec_veq P h h' H i Hi); reflexivity).
      destruct t as [|t]; cbn [nth]; [exact G|apply IH, G].
  Qed.
  Lemma follow_more gy d : forall count rules h t, t < count -> nth t (follow F O n gy rules (S count) h) d = nth t (follow F O n gy rules count h) d.
  Proof.
    induction count as [|c IH]; intros rules h t Ht; [lia|].
    change (follow F O n gy rules (S (S c)) h) with (match rules with (P, D) :: rs => let h' := vadd (mvec n P h) D in h' :: follow F O n gy rs (S c) h' | [] => let h' := mvec n gy h in h' :: follow F O n gy [] (S c) h' end).
    change (follow F O n gy rules (S c) h) with (match rules with (P, D) :: rs => let h' := vadd (mvec n P h) D in h' :: follow F O n gy rs c h' | [] => let h' := mvec n gy h in h' :: follow F O n gy [] c h' end).
    destruct rules as [|[P D] rs]; cbn zeta; destruct t as [|t]; try reflexivity; cbn [nth]; apply IH; lia.
  Qed.
  (** Once the rules are used up, the decision rule is left. *)
  Lemma follow_last gy d : forall count rules h, List.length rules <= count ->
    nth count (follow F O n gy rules (S count) h) d = mvec n gy (nth count (h :: follow F O n gy rules count h) d).
  Proof.
    induction count as [|c IH]; intros rules h Hl; [destruct rules; [reflexivity|cbn in Hl; lia]|].
    change (follow F O n gy rules (S (S c)) h) with (match rules with (P, D) :: rs => let h' := vadd (mvec n P h) D in h' :: follow F O n gy rs (S c) h' | [] => let h' := mvec n gy h in h' :: follow F O n gy [] (S c) h' end).
    change (follow F O n gy rules (S c) h) with (match rules with (P, D) :: rs => let h' := vadd (mvec n P h) D in h' :: follow F O n gy rs c h' | [] => let h' := mvec n gy h in h' :: follow F O n gy [] c h' end).
    destruct rules as [|[P D] rs]; cbn zeta; [apply (IH [])|apply (IH rs)]; cbn in *; lia.
  Qed.

  Lemma roll_later sys sys' : forall i later P D m R m', (forall j, j < i -> sys' j = sys (S j)) ->
    roll F O inv n sys (S i) later P D m = Ok (R, m') ->
    exists r R' m1, R = r :: R' /\ roll F O inv n sys' i later P D m = Ok (R', m1) /\ (later <> [] -> R' <> []) /\ List.length R' = i + List.length later.
  Proof.
    induction i as [|i IH]; intros later P D m R m' Hs H.
    - cbn [roll] in *; destruct (inv n _) as [im|]; [|discriminate]; cbn [bind] in H; injection H as <- <-; do 3 eexists; split; [reflexivity|]; split; [reflexivity|]; auto.
    - cbn [roll] in H; destruct (inv n (madd (mmul n (sA F (sys (S i))) P) (sB F (sys (S i))))) as [im|] eqn:Ei; [|discriminate]; cbn [bind] in H.
      destruct (IH ((mopp (mmul n im (sC F (sys (S i)))), vopp (mvec n im (vadd (mvec n (sA F (sys (S i))) D) (sD F (sys (S i)))))) :: later)
        (mopp (mmul n im (sC F (sys (S i))))) (vopp (mvec n im (vadd (mvec n (sA F (sys (S i))) D) (sD F (sys (S i)))))) im R m') as (r & R' & m1 & E1 & E2 & E3 & E4).
      + intros j Hj; apply Hs; lia.
      + cbn [roll]; exact H.
      + exists r, R', m1; split; [exact E1|]; split; [|split; [intros _; apply E3; discriminate|cbn [List.length] in E4; lia]].
        cbn [roll]; rewrite (Hs i) by lia; rewrite Ei; cbn [bind]; exact E2.
  Qed.

  (** [g'] is [g] from its second row on, and one more row by the decision rule. *)
  Definition continues (gy : mat F) (p : nat) (g g' : list (vec F)) (d : vec F) : Prop :=
    List.length g' = S p /\ (forall t, t < p -> veq n (nth t g' d) (nth (S t) g d)) /\ veq n (nth p g' d) (mvec n gy (nth p g d)).

  Lemma guess_later gy gu sys sys' final final' start p init e z g d : start < p -> veq k z (fun _ => r0 O) ->
    (forall i, S i < start -> sys' i = sys (S i)) -> (1 < start -> final' = final) ->
    guess_path F O inv n k gy gu sys final start p init e = Ok g ->
    exists g', guess_path F O inv n k gy gu sys' final' (start - 1) p (nth 0 g d) z = Ok g' /\ continues gy p g g' d.
  Proof.
    intros Hp Hz Hs Hf H.
    assert (Z : forall A i, mvec k A z i = r0 O).
    { intros A i; unfold Mat.mvec; rewrite (rsum_ext F O k _ (fun _ => r0 O)); [apply (rsum_zero F O RT)|]; intros j Hj; rewrite Hz by exact Hj; ring. }
    (* the rules [rs] and then the decision rule, from the second period on *)
    assert (G : forall rs h h', veq n h' (match rs with [] => mvec n gy h | (P, D) :: _ => vadd (mvec n P h) D end) -> List.length rs <= p ->
      continues gy p (h :: follow F O n gy rs p h) (h' :: follow F O n gy (tl rs) p h') d).
    { intros rs h h' E L; split; [cbn [List.length]; rewrite follow_length; reflexivity|].
      destruct p as [|p']; [lia|].
      assert (S1 : forall t, nth t (follow F O n gy rs (S p') h) d = nth t (let h1 := match rs with [] => mvec n gy h | (P, D) :: _ => vadd (mvec n P h) D end in h1 :: follow F O n gy (tl rs) p' h1) d).
      { intros t; cbn [follow]; destruct rs as [|[P D] rs']; reflexivity. }
      set (h1 := match rs with [] => mvec n gy h | (P, D) :: _ => vadd (mvec n P h) D end) in *; cbn zeta in S1.
      split.
      - intros t Ht; cbn [nth]; rewrite S1; destruct t as [|t]; cbn [nth]; [exact E|].
        rewrite follow_more by lia; apply follow_veq, E.
      - cbn [nth]; rewrite S1.
        assert (Q : veq n (nth p' (follow F O n gy (tl rs) (S p') h') d) (nth p' (follow F O n gy (tl rs) (S p') h1) d)) by apply follow_veq, E.
        intros i Hi; rewrite Q by exact Hi; rewrite (follow_last gy d p' (tl rs) h1) by (destruct rs; cbn in *; lia); reflexivity. }
    unfold guess_path in H; destruct start as [|b].
    - injection H as <-; cbn [Nat.sub guess_path nth].
      eexists; split; [reflexivity|]; apply (G [] _ _); [|cbn; lia]; intros i Hi; unfold Mat.vadd at 1; rewrite Z; ring.
    - destruct (inv n (madd (mmul n (sA F final) gy) (sB F final))) as [im|] eqn:Ei; [|discriminate]; cbn [bind] in H.
      set (P := mopp (mmul n im (sC F final))) in *; set (D := vopp (mvec n im (sD F final))) in *.
      destruct b as [|b].
      + cbn [roll bind] in H; injection H as <-; cbn [Nat.sub guess_path nth].
        eexists; split; [reflexivity|]; apply (G [] _ _); [|cbn; lia]; intros i Hi; unfold Mat.vadd at 1; rewrite Z; ring.
      + destruct (roll F O inv n sys (S b) [(P, D)] P D im) as [[R m]|] eqn:Er; [|discriminate]; cbn [bind] in H.
        destruct (roll_later sys sys' b [(P, D)] P D im R m ltac:(intros j Hj; apply Hs; lia) Er) as ([P0 D0] & R' & m1 & -> & E2 & E3 & E4).
        injection H as <-; rewrite Nat.sub_succ, Nat.sub_0_r; cbn [nth]; unfold guess_path; rewrite Hf by lia; rewrite Ei; cbn [bind]; fold P D; rewrite E2; cbn [bind].
        destruct R' as [|[P1 D1] rs]; [exfalso; apply E3; [discriminate|reflexivity]|].
        eexists; split; [reflexivity|]; apply (G ((P1, D1) :: rs) _ _); [|cbn [List.length] in *; lia].
        intros i Hi; unfold Mat.vadd at 1; rewrite Z; unfold Mat.vadd; ring.
  Qed.
End Later.

(** ** The loop, without shocks *)

Section Quiet.
  Variable F : Type.
  Variable H : Type.
  Variable path : H -> vec F -> vec F -> res (list (vec F)).
  Variable judge : H -> list (vec F) -> res (bool * H).
  Variable shift : H -> H.
  Variable vec_of : list F -> res (vec F).
  Variable Inv : H -> Prop.
  Hypothesis judge_inv : forall h g j, Inv h -> judge h g = Ok j -> Inv (snd j).
  Hypothesis shift_inv : forall h, Inv h -> Inv (shift h).
  (** Without a mismatch the hypothesis is kept. *)
  Hypothesis judge_keeps : forall h g h', Inv h -> judge h g = Ok (false, h') -> h' = h.
  Notation loop := (periods_loop F H path judge shift).

  (** The shocks so far do not depend on those that follow. *)
  Lemma loop_app mi p : forall shocks t hypo init guess rows warns last, shocks <> [] -> Inv hypo -> (mi = 0 -> guess = None) ->
    loop mi p vec_of t shocks hypo init guess = Ok (rows, warns, last) -> List.last warns true = false ->
    exists h x e g first, Inv h /\ path h x e = Ok g /\ judge h g = Ok (false, h) /\ last = Some g /\ hd_error g = Some first /\ 1 <= mi /\
      List.last rows first = first /\ List.length rows = List.length shocks /\ List.length warns = List.length shocks /\
      forall zs, loop mi p vec_of t (shocks ++ zs) hypo init guess =
        do r <- loop mi p vec_of (t + List.length shocks) zs (shift h) first (Some g); let '(rs, ws, l) := r in Ok (rows ++ rs, warns ++ ws, l).
  Proof using judge_inv shift_inv judge_keeps.
    induction shocks as [|shk shocks IH]; intros t hypo init guess rows warns last Hne I G E W; [congruence|].
    cbn [periods_loop app] in *.
    destruct mi as [|mi]; [rewrite (G eq_refl) in E; discriminate|].
    destruct (vec_of shk) as [e|] eqn:Ee; [|discriminate]; cbn [bind] in E |- *.
    set (mx := S mi) in *.
    destruct (iterate F H path judge mx init e (Outcome F H guess hypo true 0)) as [o|] eqn:Ei; [|discriminate]; cbn [bind] in E |- *.
    apply (iterate_spec F H path judge Inv judge_inv) in Ei; [|reflexivity|lia|exact I].
    destruct Ei as (h & g & j & Ih & Ep & Ej & Eg & Eh & Ec & _ & _).
    rewrite Eg in E |- *; destruct g as [|first g]; [discriminate|].
    destruct (Nat.ltb_spec t p) as [Lt|]; [|discriminate].
    destruct (loop mx p vec_of (S t) shocks (shift (o_hypo F H o)) first (Some (first :: g))) as [[[rows' warns'] last']|] eqn:El; [|discriminate].
    cbn [bind] in E; injection E as <- <- <-.
    destruct shocks as [|s2 shocks'].
    - cbn [periods_loop] in El; injection El as <- <- <-; cbn in W; rewrite Ec in W.
      assert (Ej' : judge h (first :: g) = Ok (false, h)).
      { destruct j as [c h']; cbn [fst snd] in *; rewrite W in Ej; rewrite Ej; f_equal; f_equal; exact (judge_keeps _ _ _ Ih Ej). }
      rewrite Ej in Ej'; injection Ej' as ->; cbn [snd fst] in *.
      exists h, init, e, (first :: g), first; repeat (split; [first [assumption|reflexivity|lia]|]).
      intros zs; cbn [app List.length]; rewrite Eh, Ec, Nat.add_1_r; destruct (loop mx p vec_of (S t) zs (shift h) first (Some (first :: g))) as [[[? ?] ?]|]; reflexivity.
    - assert (Is : Inv (shift (o_hypo F H o))) by (apply shift_inv; rewrite Eh; exact (judge_inv _ _ _ Ih Ej)).
      destruct (IH (S t) _ _ _ _ _ _ ltac:(discriminate) Is ltac:(discriminate) El) as (h' & x & e' & g' & f' & Q1 & Q2 & Q3 & Q4 & Q5 & Q6 & Q7 & Q8 & Q9 & Q10).
      { destruct warns'; [|exact W].
        apply (periods_spec F H path judge shift Inv judge_inv shift_inv vec_of) in El; [|exact Is|discriminate].
        destruct El as (_ & El & _); discriminate. }
      exists h', x, e', g', f'; repeat (split; [first [assumption|lia]|]).
      split; [destruct rows'; [cbn in Q8; lia|exact Q7]|]; split; [cbn [List.length] in *; lia|]; split; [cbn [List.length] in *; lia|].
      intros zs; specialize (Q10 zs); rewrite Q10; replace (t + List.length (shk :: s2 :: shocks')) with (S t + List.length (s2 :: shocks')) by (cbn [List.length]; lia).
      destruct (loop mx p vec_of (S t + List.length (s2 :: shocks')) zs (shift h') f' (Some g')) as [[[? ?] ?]|]; reflexivity.
  Qed.

  (** Periods in which what was foreseen comes true. *)
  Variable n p : nat.
  Variable d : vec F.
  Variable zrow : list F.
  Variable Q : H -> list (vec F) -> Prop.
  Hypothesis Q_length : forall h g, Q h g -> List.length g = S p.
  Hypothesis Q_next : forall h g, Q h g -> exists z g', vec_of zrow = Ok z /\ path (shift h) (nth 0 g d) z = Ok g' /\
    judge (shift h) g' = Ok (false, shift h) /\ Q (shift h) g' /\ forall t, t < p -> veq F n (nth t g' d) (nth (S t) g d).

  Lemma iterate_right left init e h g guess : path h init e = Ok g -> judge h g = Ok (false, h) -> 1 <= left ->
    iterate F H path judge left init e (Outcome F H guess h true 0) = Ok (Outcome F H (Some g) h false 1).
  Proof using. intros E1 E2 L; destruct left as [|left]; [lia|]; cbn [iterate o_change o_hypo]; rewrite E1; cbn [bind]; rewrite E2; cbn [bind fst snd o_iter]; destruct left; reflexivity. Qed.

  Lemma quiet_loop mi : 1 <= mi -> forall m t h g, t + m <= p -> Q h g ->
    exists rows g', loop mi p vec_of t (repeat zrow m) (shift h) (nth 0 g d) (Some g) = Ok (rows, repeat false m, Some g') /\ List.length rows = m /\ List.length g' = S p /\
      (forall j, j < m -> veq F n (nth j rows d) (nth (S j) g d)) /\
      (forall u, m + u <= p -> veq F n (nth u g' d) (nth (m + u) g d)).
  Proof using Q_next Q_length.
    intros Hm; induction m as [|m IH]; intros t h g Ht Hq; cbn [repeat].
    - exists [], g; cbn; split; [reflexivity|]; split; [reflexivity|]; split; [exact (Q_length _ _ Hq)|]; split; [intros; lia|]; reflexivity.
    - destruct (Q_next h g Hq) as (z & g' & Ez & Ep & Ej & Hq' & Hc).
      destruct (IH (S t) (shift h) g' ltac:(lia) Hq') as (rows & g2 & E & L1 & L2 & R1 & R2).
      exists (nth 0 g' d :: rows), g2; split.
      + cbn [periods_loop]; destruct mi as [|mi']; [lia|]; rewrite Ez; cbn [bind].
        rewrite (iterate_right (S mi') (nth 0 g d) z (shift h) g' (Some g) Ep Ej Hm); cbn [bind o_guess o_hypo o_change].
        pose proof (Q_length _ _ Hq') as Lg; destruct g' as [|f' gt]; [discriminate|]; cbn [nth] in *.
        destruct (Nat.ltb_spec t p); [|lia]; rewrite E; reflexivity.
      + split; [cbn; lia|]; split; [exact L2|]; split.
        * intros [|j] Hj; cbn [nth]; [apply Hc; lia|]; intros i Hi; rewrite (R1 j ltac:(lia) i Hi); apply Hc; [lia|exact Hi].
        * intros u Hu i Hi; rewrite (R2 u ltac:(lia) i Hi); replace (S m + u) with (S (m + u)) by lia; apply Hc; [lia|exact Hi].
  Qed.

  (** The whole: with zeros after the shocks, and without. *)
  Lemma solve_zeros (O : rops F) mi width shocks hypo init rows warns out :
    zrow = repeat (r0 O) width -> Inv hypo -> shocks <> [] -> List.length shocks <= p ->
    solve_loop F O H path judge shift mi p vec_of width shocks hypo init = Ok (rows, warns, out) -> List.last warns true = false ->
    (forall h i e g, Inv h -> path h i e = Ok g -> List.length g = S p) ->
    exists h x e g, Inv h /\ path h x e = Ok g /\ judge h g = Ok (false, h) /\ List.length g = S p /\
      (forall u, List.length shocks - 1 + u < p -> nth (List.length shocks - 1 + u) rows d = nth u g d) /\
      (Q h g -> forall m, List.length shocks + m <= p -> exists rows', solve_loop F O H path judge shift mi p vec_of width (shocks ++ repeat zrow m) hypo init = Ok (rows', warns ++ repeat false m, out) /\
         List.length rows' = p /\ forall t, t < p -> veq F n (nth t rows' d) (nth t rows d)).
  Proof using judge_inv shift_inv judge_keeps Q_next Q_length.
    intros Ez I Hne Hm E W Hg; unfold solve_loop in E |- *.
    destruct (loop mi p vec_of 0 shocks hypo init None) as [[[rows0 warns0] last]|] eqn:El; [|discriminate]; cbn [bind] in E.
    assert (Ew : warns0 = warns).
    { destruct (List.length shocks <? p); [|injection E as _ <- _; reflexivity]; destruct last; [|discriminate].
      destruct (_ =? _); [injection E as _ <- _; reflexivity|]; destruct (firstn _ _) as [|v [|? ?]]; try discriminate; injection E as _ <- _; reflexivity. }
    subst warns0.
    destruct (loop_app mi p shocks 0 hypo init None rows0 warns last Hne I ltac:(reflexivity) El W) as (h & x & e & g & first & Q1 & Q2 & Q3 & -> & Q5 & Q6 & Q7 & Q8 & Q9 & Q10).
    pose proof (Hg _ _ _ _ Q1 Q2) as Lg.
    assert (Ls : 1 <= List.length shocks) by (destruct shocks; [congruence|cbn; lia]).
    assert (Fg : nth 0 g d = first) by (destruct g; [discriminate|injection Q5 as ->; reflexivity]).
    assert (Lr0 : nth (List.length shocks - 1) rows0 d = first).
    { transitivity (List.last rows0 first); [|exact Q7]; rewrite <- Q8; clear - Q8 Ls; destruct rows0 as [|r rows0]; [cbn in Q8; lia|]; clear; revert r; induction rows0 as [|r' rows0 IH]; intros r; [reflexivity|].
      specialize (IH r'); cbn [List.length] in IH |- *; rewrite Nat.sub_succ, Nat.sub_0_r in IH |- *; cbn [nth]; exact IH. }
    set (T := List.length shocks) in *.
    assert (Lt : List.length (firstn (p - T) (tl g)) = p - T) by (rewrite firstn_length; destruct g; cbn in *; lia).
    assert (Er : rows = rows0 ++ firstn (p - T) (tl g) /\ out = shocks ++ repeat (repeat (r0 O) width) (p - T)).
    { destruct (Nat.ltb_spec T p) as [L|L].
      - rewrite Lt, Nat.eqb_refl in E; injection E as <- <-; auto.
      - injection E as <- <-; replace (p - T) with 0 by lia; cbn; rewrite !app_nil_r; auto. }
    destruct Er as [-> ->]; clear E.
    assert (V : forall u, T - 1 + u < p -> nth (T - 1 + u) (rows0 ++ firstn (p - T) (tl g)) d = nth u g d).
    { intros [|u] Hu.
      - rewrite Nat.add_0_r, app_nth1 by (unfold vec in *; lia); rewrite Lr0, Fg; reflexivity.
      - rewrite app_nth2 by (unfold vec in *; lia); replace (T - 1 + S u - List.length rows0) with u by (unfold vec in *; lia).
        destruct g as [|f0 gt]; [discriminate|]; cbn [tl nth]; rewrite <- (firstn_skipn (p - T) gt) at 2; rewrite app_nth1; [reflexivity|]; cbn [tl] in Lt; rewrite Lt; lia. }
    exists h, x, e, g; repeat (split; [first [assumption]|]).
    intros Hq m Hm'; rewrite Q10; cbn [plus].
    destruct (quiet_loop mi Q6 m T h g Hm' Hq) as (rows1 & g' & E1 & L1 & L2 & R1 & R2); rewrite Fg in E1; rewrite E1; cbn [bind].
    rewrite app_length, repeat_length.
    fold T.
    assert (Lt' : List.length (firstn (p - (T + m)) (tl g')) = p - (T + m)) by (rewrite firstn_length; destruct g'; cbn in *; lia).
    exists ((rows0 ++ rows1) ++ firstn (p - (T + m)) (tl g')); split.
    - assert (Eo : (shocks ++ repeat zrow m) ++ repeat (repeat (r0 O) width) (p - (T + m)) = shocks ++ repeat (repeat (r0 O) width) (p - T)).
      { rewrite <- app_assoc, Ez, <- repeat_app; do 2 f_equal; lia. }
      destruct (Nat.ltb_spec (T + m) p) as [L|L].
      + rewrite Lt', Nat.eqb_refl, Eo; reflexivity.
      + replace (p - (T + m)) with 0 in * by lia; cbn [firstn repeat] in *; rewrite app_nil_r in *; rewrite Eo; reflexivity.
    - split; [rewrite !app_length, Lt'; unfold vec in *; lia|].
      intros t Ht i Hi; destruct (Nat.lt_ge_cases t T) as [A|A].
      + rewrite <- app_assoc, !app_nth1 by (unfold vec in *; lia); reflexivity.
      + replace t with (T - 1 + S (t - T)) at 2 by lia; rewrite V by lia.
        destruct (Nat.lt_ge_cases t (T + m)) as [B|B].
        * rewrite app_nth1 by (rewrite app_length; unfold vec in *; lia); rewrite app_nth2 by (unfold vec in *; lia).
          rewrite (R1 (t - List.length rows0)) by (unfold vec in *; lia); do 2 f_equal; unfold vec in *; lia.
        * rewrite app_nth2 by (rewrite app_length; unfold vec in *; lia); rewrite app_length.
          assert (Et : nth (t - (List.length rows0 + List.length rows1)) (firstn (p - (T + m)) (tl g')) d = nth (S (t - (T + m))) g' d).
          { replace (t - (List.length rows0 + List.length rows1)) with (t - (T + m)) by (unfold vec in *; lia).
            destruct g' as [|f0 gt]; [discriminate|]; cbn [tl nth] in *; rewrite <- (firstn_skipn (p - (T + m)) gt) at 2; rewrite app_nth1; [reflexivity|]; rewrite Lt'; lia. }
          rewrite Et, R2 by lia; do 2 f_equal; lia.
  Qed.
End Quiet.
