(** C91: without further shocks, an occasionally-binding simulation goes on as foreseen. *)
From Verif Require Import Base Nd NdProofs NdInst SimSpec Mat MatProofs Indexing Occbin OccbinSpec OccbinProofs OccbinProofs2 OccbinProofs3 PropOccbin.
Require Import ZArith.

(** ** Preliminaries *)

Lemma set_many_zero F O k l : forall shock v e z, set_many F k l shock v = Ok e -> (forall i, z i = r0 O) ->
  exists z', set_many F k l (repeat (r0 O) (List.length l)) z = Ok z' /\ forall i, z' i = r0 O.
Proof.
  induction l as [|a l IH]; intros shock v e z E Hz; [exists z; auto|].
  destruct shock as [|s shock]; [discriminate|]; cbn [set_many List.length repeat] in *; destruct (a <? k); [|discriminate].
  apply (IH _ _ _ (fun i => if i =? a then r0 O else z i) E); intros i; destruct (i =? a); [reflexivity|apply Hz].
Qed.
Lemma innovations_zero F O k ex shocks shk e : check_shocks F ex shocks = Ok tt -> innovations F O k ex shk = Ok e ->
  exists z, innovations F O k ex (repeat (r0 O) (shock_width F shocks)) = Ok z /\ forall i, z i = r0 O.
Proof.
  destruct ex as [i|l]; intros C E; cbn [innovations] in *.
  - destruct (i <? k); [|discriminate].
    assert (W : shock_width F shocks = 1) by (destruct shocks; cbn in *; [reflexivity|destruct (Nat.eqb_spec width 1); congruence]).
    rewrite W; eexists; split; [reflexivity|]; intros j; cbn; destruct (j =? i); reflexivity.
  - assert (W : shock_width F shocks = List.length l) by (destruct shocks; cbn in *; [discriminate|destruct (Nat.eqb_spec (List.length l) width); congruence]).
    rewrite W; apply (set_many_zero F O k l _ _ _ _ E); reflexivity.
Qed.

Lemma next_hypo_same hypo cs : List.length cs = List.length hypo -> mismatch hypo cs = false -> next_hypo hypo cs = hypo.
Proof.
  unfold mismatch, next_hypo; revert cs; induction hypo as [|h hypo IH]; intros [|[b r] cs] L E; try discriminate; [reflexivity|].
  cbn [combine existsb map fst snd] in *; apply orb_false_iff in E as [E1 E2]; rewrite IH by (cbn in L; congruence || exact E2).
  f_equal; destruct h, b, r; try reflexivity; discriminate.
Qed.
Lemma judge1_keeps F constr h g h' : judge1 F constr h g = Ok (false, h') -> h' = h.
Proof.
  unfold judge1; destruct (constr g) as [cs|]; [|discriminate]; cbn [bind]; destruct (Nat.eqb_spec (List.length cs) (List.length h)); [|discriminate].
  intros E; injection E as E1 <-; apply next_hypo_same; assumption.
Qed.
Lemma unravel_ravel h : unravel (ravel h) = h.
Proof. unfold ravel; rewrite unravel_app by (rewrite !map_length; reflexivity); induction h as [|[a b] h IH]; [reflexivity|]; cbn; rewrite IH; reflexivity. Qed.
Lemma judge2_keeps F r constr h g h' : judge2 F r constr h g = Ok (false, h') -> h' = h.
Proof.
  assert (E : judge2 F r constr h g = judge2 F false constr h g) by (destruct r; [apply judge2_restrained|reflexivity]).
  rewrite E; unfold judge2; destruct (constr g) as [cs|]; [|discriminate]; cbn [bind]; destruct (Nat.eqb_spec (List.length cs) (List.length (ravel h))); [|discriminate].
  intros Q; injection Q as E1 <-; rewrite next_hypo_same by assumption; apply unravel_ravel.
Qed.

(** ** The statement *)

(** The same shocks, then [m] periods without. *)
Definition extended {F} (O : rops F) (s : shock_array F) (m : nat) : shock_array F :=
  match s with
  | Flat _ l => Flat F (l ++ repeat (r0 O) m)
  | Rows _ w l => Rows F w (l ++ repeat (repeat (r0 O) w) m)
  end.
(** [v], [gy v], [gy gy v] and so on: the values of the first [n] variables under a decision rule. *)
Fixpoint onwards {F} (O : rops F) (n : nat) (gy : mat F) (j : nat) (v : vec F) : vec F :=
  match j with 0 => v | S j' => fun i => Sum F O n (fun l => rmul O (gy i l) (onwards O n gy j' v l)) end.
(** A condition on the values of a period: it depends on those of the [n] variables only. *)
Definition of_values {F} (n : nat) (c : vec F -> bool * bool) : Prop := forall v w, (forall i, i < n -> v i = w i) -> c v = c w.

Lemma extended_rows F (O : rops F) s m : shock_rows F (extended O s m) = shock_rows F s ++ repeat (repeat (r0 O) (shock_width F s)) m.
Proof. destruct s as [l|w l]; [|reflexivity]; cbn; rewrite map_app; f_equal; induction m as [|m IH]; [reflexivity|]; cbn; rewrite IH; reflexivity. Qed.
Lemma extended_width F (O : rops F) s m : shock_width F (extended O s m) = shock_width F s.
Proof. destruct s; reflexivity. Qed.
Lemma extended_check F (O : rops F) ex s m : check_shocks F ex (extended O s m) = check_shocks F ex s.
Proof. destruct ex, s; reflexivity. Qed.

Lemma onwards_eq F (O : rops F) n gy v j : forall i, onwards O n gy (S j) v i = mvec F O n gy (onwards O n gy j v) i.
Proof. reflexivity. Qed.

Section Foresight.
  Variable F : Type.
  Variable O : rops F.
  Hypothesis RT : is_ring O.
  Variable inv : nat -> mat F -> res (mat F).
  Variable n k p : nat.
  Variable gy gu : mat F.
  Notation on := (onwards O n gy).
  Notation mvec := (mvec F O).

  Lemma onwards_veq j v w : veq F n v w -> veq F n (on j v) (on j w).
  Proof using. intros H; induction j as [|j IH]; [exact H|]; apply (mvec_veq F O n gy _ _ IH). Qed.
  Lemma onwards_first j v : veq F n (on j (mvec n gy v)) (on (S j) v).
  Proof using. induction j as [|j IH]; [intros i Hi; reflexivity|]; apply (mvec_veq F O n gy _ _ IH). Qed.

  (** What the conditions say of a path, they say of it one period later. *)
  Lemma agree_later (c : vec F -> bool * bool) (h : list bool) g g' d : of_values n c -> List.length h = S p -> List.length g = S p ->
    nth p h false = false -> (forall j, fst (c (on (S j) (nth p g d))) = false) -> consistent h (map c g) -> continues F O n gy p g g' d ->
    consistent (tl h ++ [false]) (map c g') /\ forall j, fst (c (on (S j) (nth p g' d))) = false.
  Proof using.
    intros Hc Lh Lg N N' (A & B) (L' & C1 & C2); split.
    - assert (Lt : List.length (tl h ++ [false]) = S p) by (rewrite app_length; destruct h; cbn in *; lia).
      split; [rewrite map_length; lia|]; rewrite Lt; intros t Ht.
      rewrite (nth_indep (map c g') (false, false) (c d)) by (rewrite map_length; lia); rewrite map_nth.
      destruct (Nat.eq_dec t p) as [->|Nt].
      + rewrite (Hc (nth p g' d) (on 1 (nth p g d))) by (intros i Hi; apply C2, Hi); rewrite (N' 0).
        assert (E : nth p (tl h ++ [false]) false = false) by (rewrite app_nth2 by (destruct h; cbn in *; lia); replace (p - List.length (tl h)) with 0 by (destruct h; cbn in *; lia); reflexivity).
        rewrite E; split; discriminate.
      + rewrite tl_nth by lia; rewrite (Hc (nth t g' d) (nth (S t) g d)) by (intros i Hi; apply C1; [lia|exact Hi]).
        specialize (B (S t) ltac:(lia)); rewrite (nth_indep (map c g) (false, false) (c d)) in B by (rewrite map_length; lia); rewrite map_nth in B; exact B.
    - intros j; rewrite (Hc _ (on (S (S j)) (nth p g d))); [apply N'|]; intros i Hi.
      assert (E : veq F n (on (S j) (nth p g' d)) (on (S j) (mvec n gy (nth p g d)))) by (apply onwards_veq; exact C2).
      rewrite E by exact Hi; apply onwards_first; exact Hi.
  Qed.

  (** *** One constraint *)
  Section One.
    Variable r a : system F.
    Variable c : vec F -> bool * bool.
    Hypothesis Hc : of_values n c.
    Variable d : vec F.

    Definition calm1 (h : list bool) (g : list (vec F)) : Prop :=
      List.length h = S p /\ List.length g = S p /\ nth (p - 1) h false = false /\ nth p h false = false /\
      (forall j, fst (c (on (S j) (nth p g d))) = false) /\ consistent h (map c g) /\
      exists x e, guess1 F O inv n k gy gu r a p h x e = Ok g.

    Lemma calm1_next h g z : 1 <= p -> (forall i, z i = r0 O) -> calm1 h g ->
      exists g', guess1 F O inv n k gy gu r a p (shift1 h) (nth 0 g d) z = Ok g' /\
        judge1 F (fun g => Ok (map c g)) (shift1 h) g' = Ok (false, shift1 h) /\ calm1 (shift1 h) g' /\ forall t, t < p -> veq F n (nth t g' d) (nth (S t) g d).
    Proof using RT Hc.
      intros Hp Hz (Lh & Lg & N1 & N2 & N3 & Co & x & e & E).
      destruct (locate_later h p Lh Hp N1 N2) as (l & w & l' & w' & El & El' & Es & Ls & _).
      unfold guess1 in E |- *; rewrite El in E; unfold shift1; rewrite El'; cbn [bind fst] in *.
      destruct (guess_later F O RT inv n k gy gu (regime1 F r a h) (regime1 F r a (tl h ++ [false])) a a (last_start l) p x e z g d Ls ltac:(intros i Hi; apply Hz)) as (g' & E' & Ct).
      - intros i Hi; unfold regime1; rewrite tl_nth by lia; reflexivity.
      - reflexivity.
      - exact E.
      - exists g'; rewrite Es; split; [exact E'|].
        destruct (agree_later c h g g' d Hc Lh Lg N2 N3 Co Ct) as [Co' N3'].
        assert (Lt : List.length (tl h ++ [false]) = S p) by (rewrite app_length; destruct h; cbn in *; lia).
        split; [|split; [|apply Ct]].
        + unfold judge1; cbn [bind]; rewrite (proj1 Co'), Nat.eqb_refl.
          assert (M : mismatch (tl h ++ [false]) (map c g') = false) by (apply mismatch_consistent; [apply Co'|exact Co']).
          rewrite M, next_hypo_same; [reflexivity|apply Co'|exact M].
        + split; [exact Lt|]; split; [apply Ct|]; split; [rewrite tl_nth by lia; replace (S (p - 1)) with p by lia; exact N2|].
          split; [rewrite app_nth2 by (destruct h; cbn in *; lia); replace (p - List.length (tl h)) with 0 by (destruct h; cbn in *; lia); reflexivity|].
          split; [exact N3'|]; split; [exact Co'|]; exists (nth 0 g d), z; unfold guess1, shift1; rewrite El'; cbn [bind fst]; rewrite Es; exact E'.
    Qed.
  End One.

  (** *** Two constraints *)
  Section Two.
    Variable r a0 a1 b : system F.
    Variable c0 c1 : vec F -> bool * bool.
    Hypothesis Hc0 : of_values n c0.
    Hypothesis Hc1 : of_values n c1.
    Variable d : vec F.
    Variable restrained : bool.
    Notation both := (fun g => Ok (map c0 g ++ map c1 g)).

    Definition calm2 (h : list (bool * bool)) (g : list (vec F)) : Prop :=
      List.length h = S p /\ List.length g = S p /\ nth (p - 1) h (false, false) = (false, false) /\ nth p h (false, false) = (false, false) /\
      (forall j, fst (c0 (on (S j) (nth p g d))) = false /\ fst (c1 (on (S j) (nth p g d))) = false) /\
      consistent (map fst h) (map c0 g) /\ consistent (map snd h) (map c1 g) /\
      exists x e, guess2 F O inv n k gy gu r a0 a1 b p h x e = Ok g.

    Lemma nth_fst (h : list (bool * bool)) t : nth t (map fst h) false = fst (nth t h (false, false)).
    Proof using. exact (map_nth fst h (false, false) t). Qed.
    Lemma nth_snd (h : list (bool * bool)) t : nth t (map snd h) false = snd (nth t h (false, false)).
    Proof using. exact (map_nth snd h (false, false) t). Qed.
    Lemma consistent_app h0 h1 s0 s1 : List.length s0 = List.length h0 -> List.length s1 = List.length h1 ->
      (consistent (h0 ++ h1) (s0 ++ s1) <-> consistent h0 s0 /\ consistent h1 s1).
    Proof using.
      intros L0 L1; split.
      - intros (_ & H); split; (split; [assumption|]); intros t Ht.
        + specialize (H t ltac:(rewrite app_length; lia)); rewrite !app_nth1 in H by lia; exact H.
        + specialize (H (List.length h0 + t) ltac:(rewrite app_length; lia)); rewrite !app_nth2 in H by lia.
          replace (List.length h0 + t - List.length s0) with t in H by lia; replace (List.length h0 + t - List.length h0) with t in H by lia; exact H.
      - intros ((_ & H0) & (_ & H1)); split; [rewrite !app_length; lia|]; rewrite app_length; intros t Ht.
        destruct (Nat.lt_ge_cases t (List.length h0)).
        + rewrite !app_nth1 by lia; apply H0; assumption.
        + rewrite !app_nth2 by lia; rewrite L0; apply H1; lia.
    Qed.

    Lemma calm2_next h g z : 1 <= p -> (forall i, z i = r0 O) -> calm2 h g ->
      exists g', guess2 F O inv n k gy gu r a0 a1 b p (shift2 h) (nth 0 g d) z = Ok g' /\
        judge2 F restrained both (shift2 h) g' = Ok (false, shift2 h) /\ calm2 (shift2 h) g' /\ forall t, t < p -> veq F n (nth t g' d) (nth (S t) g d).
    Proof using RT Hc0 Hc1.
      intros Hp Hz (Lh & Lg & N1 & N2 & N3 & Co0 & Co1 & x & e & E).
      assert (Lf : List.length (map fst h) = S p) by (rewrite map_length; exact Lh).
      assert (Ls : List.length (map snd h) = S p) by (rewrite map_length; exact Lh).
      assert (Ef : map fst (shift2 h) = tl (map fst h) ++ [false]) by (unfold shift2; rewrite map_app; destruct h; reflexivity).
      assert (Es : map snd (shift2 h) = tl (map snd h) ++ [false]) by (unfold shift2; rewrite map_app; destruct h; reflexivity).
      destruct (locate_later (map fst h) p Lf Hp) as (l0 & w0 & l0' & w0' & El0 & El0' & Es0 & Ls0 & _); [rewrite nth_fst, N1; reflexivity|rewrite nth_fst, N2; reflexivity|].
      destruct (locate_later (map snd h) p Ls Hp) as (l1 & w1 & l1' & w1' & El1 & El1' & Es1 & Ls1 & _); [rewrite nth_snd, N1; reflexivity|rewrite nth_snd, N2; reflexivity|].
      pose proof E as E0; unfold guess2 in E; rewrite El0, El1 in E; cbn [bind fst] in E.
      set (st := Nat.max (last_start l0) (last_start l1)) in *.
      assert (X : forall y z0, guess2 F O inv n k gy gu r a0 a1 b p (shift2 h) y z0 =
        guess_path F O inv n k gy gu (regime2 F r a0 a1 b (tl (map fst h) ++ [false]) (tl (map snd h) ++ [false]))
          (final2 F a0 a1 b (tl (map fst h) ++ [false]) (tl (map snd h) ++ [false]) (st - 1 - 1)) (st - 1) p y z0).
      { intros y z0; unfold guess2; rewrite Ef, Es, El0', El1'; cbn [bind fst]; rewrite Es0, Es1, Nat.sub_max_distr_r; reflexivity. }
      destruct (guess_later F O RT inv n k gy gu (regime2 F r a0 a1 b (map fst h) (map snd h)) (regime2 F r a0 a1 b (tl (map fst h) ++ [false]) (tl (map snd h) ++ [false]))
        (final2 F a0 a1 b (map fst h) (map snd h) (st - 1)) (final2 F a0 a1 b (tl (map fst h) ++ [false]) (tl (map snd h) ++ [false]) (st - 1 - 1)) st p x e z g d ltac:(lia) ltac:(intros i Hi; apply Hz)) as (g' & E' & Ct).
      - intros i Hi; unfold regime2; rewrite !tl_nth by lia; reflexivity.
      - intros Hs; unfold final2; rewrite !tl_nth by lia; replace (S (st - 1 - 1)) with (st - 1) by lia; reflexivity.
      - exact E.
      - rewrite <- X in E'; exists g'; split; [exact E'|].
        assert (M0 : nth p (map fst h) false = false) by (rewrite nth_fst, N2; reflexivity).
        assert (M1 : nth p (map snd h) false = false) by (rewrite nth_snd, N2; reflexivity).
        destruct (agree_later c0 (map fst h) g g' d Hc0 Lf Lg M0 (fun j => proj1 (N3 j)) Co0 Ct) as [Co0' N30].
        destruct (agree_later c1 (map snd h) g g' d Hc1 Ls Lg M1 (fun j => proj2 (N3 j)) Co1 Ct) as [Co1' N31].
        rewrite <- Ef in Co0'; rewrite <- Es in Co1'.
        assert (Lt : List.length (shift2 h) = S p) by (apply shift2_length; exact Lh).
        assert (Lr : List.length (map c0 g' ++ map c1 g') = List.length (ravel (shift2 h))) by (rewrite ravel_length, Lt, app_length, !map_length; destruct Ct; lia).
        assert (Q : consistent (ravel (shift2 h)) (map c0 g' ++ map c1 g')).
        { unfold ravel; apply consistent_app; [apply Co0'|apply Co1'|split; assumption]. }
        split; [|split; [|apply Ct]].
        + assert (J : judge2 F restrained both (shift2 h) g' = judge2 F false both (shift2 h) g') by (destruct restrained; [apply judge2_restrained|reflexivity]).
          rewrite J; unfold judge2; cbn [bind]; rewrite Lr, Nat.eqb_refl.
          assert (M : mismatch (ravel (shift2 h)) (map c0 g' ++ map c1 g') = false) by (apply mismatch_consistent; [exact Lr|exact Q]).
          rewrite M, next_hypo_same by assumption; rewrite unravel_ravel; reflexivity.
        + split; [exact Lt|]; split; [apply Ct|]; split; [unfold shift2; rewrite tl_nth by lia; replace (S (p - 1)) with p by lia; exact N2|].
          split; [unfold shift2; rewrite app_nth2 by (destruct h; cbn in *; lia); replace (p - List.length (tl h)) with 0 by (destruct h; cbn in *; lia); reflexivity|].
          split; [intros j; split; [apply N30|apply N31]|]; split; [exact Co0'|]; split; [exact Co1'|]; exists (nth 0 g d), z; exact E'.
    Qed.
  End Two.
End Foresight.

(** ** C91 *)

(** One constraint: [c] tells of the values of a period whether the constraint is violated and
    whether it is relaxed.  If the last period with a shock gives no warning, the rest of the
    simulation is the path [g] foreseen in it, under a guess [hypo] that agrees with [c].  If
    [hypo] ends in the reference regime and the constraint is not violated after the end of [g], then
    zeros after the shocks change nothing: not the values, not the shocks that are
    returned, and there are no warnings. *)
Theorem C91_one_partial :
  forall (F : Type) (O : rops F) (inv : nat -> mat F -> res (mat F)) (ref alt : regime F) (gy gu : nd F) (gyd : mat F)
    (c : vec F -> bool * bool) (ex : exog_index) (shocks : shock_array F) (init : option (vec F)) (p max_iter : nat)
    (rows : list (vec F)) (warns : list bool) (out : list (list F)),
  let n := n_endog (g_index F ref) in
  let T := List.length (shock_rows F shocks) in
  let x0 := fun _ : nat => r0 O in
  is_ring O -> of_values n c -> rule_matrix F O (g_index F ref) gy = Ok gyd -> 1 <= p ->
  occbin_one F O inv ref alt gy gu (fun g => Ok (map c g)) ex shocks init (Some p) max_iter = Ok (rows, warns, out) ->
  last warns true = false ->
  exists hypo g, List.length hypo = S p /\ List.length g = S p /\ consistent hypo (map c g) /\
    (forall u, T - 1 + u < p -> nth (T - 1 + u) rows x0 = nth u g x0) /\
    (nth (p - 1) hypo true = false -> nth p hypo true = false -> (forall j, fst (c (onwards O n gyd (S j) (nth p g x0))) = false) ->
     forall m, T + m <= p -> exists rows',
       occbin_one F O inv ref alt gy gu (fun g => Ok (map c g)) ex (extended O shocks m) init (Some p) max_iter = Ok (rows', warns ++ repeat false m, out) /\
       List.length rows' = List.length rows /\ forall t i, t < p -> i < n -> nth t rows' x0 i = nth t rows x0 i).
Proof.
  intros F O inv ref alt gy gu gyd c ex shocks init p max_iter rows warns out n T x0 RT Hc Ey Hp H W.
  assert (Np : forall s, number_of_periods F (Some p) s = p) by (intros s; destruct p; [lia|reflexivity]).
  unfold occbin_one in H |- *; rewrite Np in H; destruct (check_shocks F ex shocks) as [[]|] eqn:Ck; [|discriminate]; cbn [bind] in H.
  fold n in H; rewrite Ey in H; cbn [bind] in H.
  destruct (shock_matrix F (g_index F ref) gu) as [[k gud]|] eqn:Eu; [|discriminate]; cbn [bind fst snd] in H.
  destruct (partition F O (g_index F ref) (g_jac F ref) (vzero F O)) as [r|] eqn:Er; [|discriminate]; cbn [bind] in H.
  destruct (partition F O (g_index F alt) (g_jac F alt) (g_resid F alt)) as [a|] eqn:Ea; [|discriminate]; cbn [bind] in H.
  set (y0 := match init with Some v => v | None => vzero F O end) in *.
  set (Inv := fun h : list bool => List.length h = S p).
  assert (Ji : forall h g j, Inv h -> judge1 F (fun g => Ok (map c g)) h g = Ok j -> Inv (snd j)) by (intros h g j Hh Hj; unfold Inv in *; rewrite (judge1_length F _ h g j Hj); exact Hh).
  assert (Si : forall h, Inv h -> Inv (shift1 h)) by (intros h Hh; apply shift1_length; exact Hh).
  assert (I0 : Inv (repeat false (S p))) by apply repeat_length.
  assert (Hg : forall h i e g, Inv h -> guess1 F O inv n k gyd gud r a p h i e = Ok g -> List.length g = S p).
  { intros h i e g Hh Hg; unfold guess1 in Hg; destruct (locate h); [|discriminate]; cbn [bind] in Hg; exact (guess_path_length _ _ _ _ _ _ _ _ _ _ _ _ _ _ Hg). }
  pose proof H as H0; apply (solve_spec F (list bool) _ _ _ Inv Ji Si) in H0; [|exact I0|exact Hg].
  destruct H0 as (Lr & _ & Eo & Le & Ne & R); fold T in Eo, Le, Ne, R; specialize (Ne Hp).
  destruct (R 0 ltac:(lia)) as (_ & e & _ & _ & _ & R2 & _); clear R.
  destruct (innovations_zero F O k ex shocks _ e Ck R2) as (z & Ez & Hz).
  destruct (solve_zeros F (list bool) (guess1 F O inv n k gyd gud r a p) (judge1 F (fun g => Ok (map c g))) shift1 (innovations F O k ex) Inv Ji Si
    (fun h g h' _ => judge1_keeps F _ h g h') n p x0 (repeat (r0 O) (shock_width F shocks)) (calm1 F O inv n k p gyd gud r a c x0)) with (7 := H) as (h & x & e' & g & Q1 & Q2 & Q3 & Q4 & Q5 & Q6).
  - intros h g Q; apply Q.
  - intros h g Q; exists z; destruct (calm1_next F O RT inv n k p gyd gud r a c Hc x0 h g z Hp Hz Q) as (g' & G1 & G2 & G3 & G4); exists g'; repeat (split; [assumption|]); exact G4.
  - reflexivity.
  - exact I0.
  - intros E; unfold T in Ne; rewrite E in Ne; cbn in Ne; lia.
  - exact Le.
  - exact W.
  - exact Hg.
  - exists h, g; split; [exact Q1|]; split; [exact Q4|].
    assert (Co : consistent h (map c g)).
    { unfold judge1 in Q3; cbn [bind] in Q3; destruct (Nat.eqb_spec (List.length (map c g)) (List.length h)); [|discriminate]; injection Q3 as Q3 _; apply mismatch_consistent; assumption. }
    split; [exact Co|]; split; [exact Q5|]; intros N1 N2 N3 m Hm.
    unfold Inv in Q1; rewrite (nth_indep h true false) in N1 by lia; rewrite (nth_indep h true false) in N2 by lia.
    destruct (Q6 ltac:(repeat (split; [assumption|]); exists x, e'; exact Q2) m Hm) as (rows' & E1 & E2 & E3).
    exists rows'; split; [|split; [congruence|intros t i Ht Hi; apply E3; assumption]].
    rewrite extended_check, Ck, Np; cbn [bind]; fold n; rewrite Ey; cbn [bind]; rewrite ?Eu, ?Er, ?Ea; cbn [bind fst snd]; rewrite extended_rows, extended_width; exact E1.
Qed.
Print Assumptions C91_one_partial.

(** Two constraints, of which [c0] and [c1] tell. *)
Theorem C91_two_partial :
  forall (F : Type) (O : rops F) (inv : nat -> mat F -> res (mat F)) (ref alt0 alt1 dbl : regime F) (gy gu : nd F) (gyd : mat F)
    (c0 c1 : vec F -> bool * bool) (ex : exog_index) (shocks : shock_array F) (init : option (vec F)) (p max_iter : nat) (restrained : bool)
    (rows : list (vec F)) (warns : list bool) (out : list (list F)),
  let n := n_endog (g_index F ref) in
  let T := List.length (shock_rows F shocks) in
  let x0 := fun _ : nat => r0 O in
  is_ring O -> of_values n c0 -> of_values n c1 -> rule_matrix F O (g_index F ref) gy = Ok gyd -> 1 <= p ->
  occbin_two F O inv ref alt0 alt1 dbl gy gu (fun g => Ok (map c0 g ++ map c1 g)) ex shocks init (Some p) max_iter restrained = Ok (rows, warns, out) ->
  last warns true = false ->
  exists hypo0 hypo1 g, List.length hypo0 = S p /\ List.length hypo1 = S p /\ List.length g = S p /\
    consistent hypo0 (map c0 g) /\ consistent hypo1 (map c1 g) /\
    (forall u, T - 1 + u < p -> nth (T - 1 + u) rows x0 = nth u g x0) /\
    (nth (p - 1) hypo0 true = false -> nth p hypo0 true = false -> nth (p - 1) hypo1 true = false -> nth p hypo1 true = false ->
     (forall j, fst (c0 (onwards O n gyd (S j) (nth p g x0))) = false /\ fst (c1 (onwards O n gyd (S j) (nth p g x0))) = false) ->
     forall m, T + m <= p -> exists rows',
       occbin_two F O inv ref alt0 alt1 dbl gy gu (fun g => Ok (map c0 g ++ map c1 g)) ex (extended O shocks m) init (Some p) max_iter restrained = Ok (rows', warns ++ repeat false m, out) /\
       List.length rows' = List.length rows /\ forall t i, t < p -> i < n -> nth t rows' x0 i = nth t rows x0 i).
Proof.
  intros F O inv ref alt0 alt1 dbl gy gu gyd c0 c1 ex shocks init p max_iter restrained rows warns out n T x0 RT Hc0 Hc1 Ey Hp H W.
  assert (Np : forall s, number_of_periods F (Some p) s = p) by (intros s; destruct p; [lia|reflexivity]).
  unfold occbin_two in H |- *; rewrite Np in H; destruct (check_shocks F ex shocks) as [[]|] eqn:Ck; [|discriminate]; cbn [bind] in H.
  fold n in H; rewrite Ey in H; cbn [bind] in H.
  destruct (shock_matrix F (g_index F ref) gu) as [[k gud]|] eqn:Eu; [|discriminate]; cbn [bind fst snd] in H.
  destruct (partition F O (g_index F ref) (g_jac F ref) (vzero F O)) as [r|] eqn:Er; [|discriminate]; cbn [bind] in H.
  destruct (partition F O (g_index F alt0) (g_jac F alt0) (g_resid F alt0)) as [a0|] eqn:Ea0; [|discriminate]; cbn [bind] in H.
  destruct (partition F O (g_index F alt1) (g_jac F alt1) (g_resid F alt1)) as [a1|] eqn:Ea1; [|discriminate]; cbn [bind] in H.
  destruct (partition F O (g_index F dbl) (g_jac F dbl) (g_resid F dbl)) as [b|] eqn:Eb; [|discriminate]; cbn [bind] in H.
  set (y0 := match init with Some v => v | None => vzero F O end) in *.
  set (both := fun g => Ok (map c0 g ++ map c1 g)) in *.
  set (Inv := fun h : list (bool * bool) => List.length h = S p).
  assert (Ji : forall h g j, Inv h -> judge2 F restrained both h g = Ok j -> Inv (snd j)) by (intros h g j Hh Hj; unfold Inv in *; rewrite (judge2_length F _ _ h g j Hj); exact Hh).
  assert (Si : forall h, Inv h -> Inv (shift2 h)) by (intros h Hh; apply shift2_length; exact Hh).
  assert (I0 : Inv (repeat (false, false) (S p))) by apply repeat_length.
  assert (Hg : forall h i e g, Inv h -> guess2 F O inv n k gyd gud r a0 a1 b p h i e = Ok g -> List.length g = S p).
  { intros h i e g Hh Hg; unfold guess2 in Hg; destruct (locate (map fst h)); [|discriminate]; destruct (locate (map snd h)); [|discriminate]; cbn [bind] in Hg; exact (guess_path_length _ _ _ _ _ _ _ _ _ _ _ _ _ _ Hg). }
  pose proof H as H0; apply (solve_spec F (list (bool * bool)) _ _ _ Inv Ji Si) in H0; [|exact I0|exact Hg].
  destruct H0 as (Lr & _ & Eo & Le & Ne & R); fold T in Eo, Le, Ne, R; specialize (Ne Hp).
  destruct (R 0 ltac:(lia)) as (_ & e & _ & _ & _ & R2 & _); clear R.
  destruct (innovations_zero F O k ex shocks _ e Ck R2) as (z & Ez & Hz).
  destruct (solve_zeros F (list (bool * bool)) (guess2 F O inv n k gyd gud r a0 a1 b p) (judge2 F restrained both) shift2 (innovations F O k ex) Inv Ji Si
    (fun h g h' _ => judge2_keeps F _ _ h g h') n p x0 (repeat (r0 O) (shock_width F shocks)) (calm2 F O inv n k p gyd gud r a0 a1 b c0 c1 x0)) with (7 := H) as (h & x & e' & g & Q1 & Q2 & Q3 & Q4 & Q5 & Q6).
  - intros h g Q; apply Q.
  - intros h g Q; exists z; destruct (calm2_next F O RT inv n k p gyd gud r a0 a1 b c0 c1 Hc0 Hc1 x0 restrained h g z Hp Hz Q) as (g' & G1 & G2 & G3 & G4); exists g'; repeat (split; [assumption|]); exact G4.
  - reflexivity.
  - exact I0.
  - intros E; unfold T in Ne; rewrite E in Ne; cbn in Ne; lia.
  - exact Le.
  - exact W.
  - exact Hg.
  - unfold Inv in Q1; exists (map fst h), (map snd h), g; split; [rewrite map_length; exact Q1|]; split; [rewrite map_length; exact Q1|]; split; [exact Q4|].
    assert (Co : consistent (map fst h) (map c0 g) /\ consistent (map snd h) (map c1 g)).
    { apply consistent_app; [rewrite !map_length; lia|rewrite !map_length; lia|].
      assert (J : judge2 F restrained both h g = judge2 F false both h g) by (destruct restrained; [apply judge2_restrained|reflexivity]).
      rewrite J in Q3; unfold judge2, both in Q3; cbn [bind] in Q3; destruct (Nat.eqb_spec (List.length (map c0 g ++ map c1 g)) (List.length (ravel h))); [|discriminate].
      injection Q3 as Q3 _; apply mismatch_consistent; assumption. }
    destruct Co as [Co0 Co1]; split; [exact Co0|]; split; [exact Co1|]; split; [exact Q5|]; intros N1 N2 N3 N4 N5 m Hm.
    assert (X : forall t (l : list bool), t < S p -> List.length l = S p -> nth t l true = nth t l false) by (intros t l A B; apply nth_indep; lia).
    rewrite X in N1, N2, N3, N4 by (rewrite ?map_length; lia); rewrite nth_fst in N1, N2; rewrite nth_snd in N3, N4.
    destruct (Q6 ltac:(split; [exact Q1|]; split; [exact Q4|]; split; [apply injective_projections; assumption|]; split; [apply injective_projections; assumption|];
      repeat (split; [assumption|]); exists x, e'; exact Q2) m Hm) as (rows' & E1 & E2 & E3).
    exists rows'; split; [|split; [congruence|intros t i Ht Hi; apply E3; assumption]].
    rewrite extended_check, Ck, Np; cbn [bind]; fold n; rewrite Ey; cbn [bind]; rewrite ?Eu, ?Er, ?Ea0, ?Ea1, ?Eb; cbn [bind fst snd]; rewrite extended_rows, extended_width; exact E1.
Qed.
Print Assumptions C91_two_partial.

(** A model with a state: x = 2 x(-1) + e, y = x + y(-1); in the alternative regime x = 2 x(-1) + e + 1. *)
Definition xdyn : indexes := Indexes [Some 0; Some 1] [Some 2; Some 3] [None; None] 4 1.
Definition jdyn : mat Z := fun i j => match i, j with 0, 0 => (-2)%Z | 0, 2 => 1%Z | 0, 4 => (-1)%Z | 1, 1 => (-1)%Z | 1, 2 => (-1)%Z | 1, 3 => 1%Z | _, _ => 0%Z end.
Definition gydyn : nd Z := M2 2 2 (fun i j => match i, j with _, 0 => 2%Z | 1, 1 => 1%Z | _, _ => 0%Z end).
Definition higher : vec Z := fun i => match i with 0 => (-1)%Z | _ => 0%Z end.
Definition run91 (c : vec Z -> bool * bool) (shocks : list Z) (p : nat) :=
  occbin_one Z ZO inv2 (Regime Z xdyn jdyn (vzero Z ZO)) (Regime Z xdyn jdyn higher) gydyn (V1 2 (fun _ => 1%Z)) (fun g => Ok (map c g)) (OneShock 0) (Flat Z shocks) None (Some p) 20.

(** The values of x and y, the warnings and the shocks of a simulation. *)
Definition seen (r : res (list (vec Z) * list bool * list (list Z))) : res (list (Z * Z) * list bool * list (list Z)) :=
  match r with Ok (rows, warns, out) => Ok (list2 rows, warns, out) | Err e => Err e end.

(** Without the conditions it fails: the last entry of a guess is not looked at (C49), and the
    alternative regime is then foreseen for a period that was to be one of the reference
    regime.  The constraint is violated where x is 16; with one more period without shocks, the
    last value of x is 9, not 8, and there is no warning in either case. *)
Theorem C91_refuted :
  exists c shocks p out, of_values 2 c /\
    seen (run91 c shocks p) = Ok ([(1, 1); (2, 3); (4, 7); (8, 15)]%Z, [false], out) /\
    seen (run91 c (shocks ++ [0%Z]) p) = Ok ([(1, 1); (2, 3); (4, 7); (9, 16)]%Z, [false; false], out).
Proof.
  exists (fun v => (Z.eqb (v 0) 16, false)), [1%Z], 4, [[1]; [0]; [0]; [0]]%Z; split; [intros v w E; rewrite (E 0) by lia; reflexivity|].
  split; vm_compute; reflexivity.
Qed.
Print Assumptions C91_refuted.

(** The constraint is violated where x is 2, in the second period; it is foreseen to hold from
    then on, and x only grows. *)
Definition at_two : vec Z -> bool * bool := fun v => (Z.eqb (v 0) 2, false).
Example C91_nonvacuous :
  is_ring ZO /\ of_values 2 at_two /\
  seen (run91 at_two [1%Z] 4) = Ok ([(1, 1); (3, 4); (6, 10); (12, 22)]%Z, [false], [[1]; [0]; [0]; [0]]%Z) /\
  exists gyd, rule_matrix Z ZO xdyn gydyn = Ok gyd /\
    (let hypo := [false; true; false; false; false] in
     seen (match guess1 Z ZO inv2 2 1 gyd (fun _ _ => 1%Z) (System Z (mzero Z ZO) (fun i j => jdyn i (2 + j)) jdyn (vzero Z ZO) (fun i _ => jdyn i 4))
         (System Z (mzero Z ZO) (fun i j => jdyn i (2 + j)) jdyn higher (fun i _ => jdyn i 4)) 4 hypo (vzero Z ZO) (fun _ => 1%Z) with Ok g => Ok (g, [], []) | Err e => Err e end)
       = Ok ([(1, 1); (3, 4); (6, 10); (12, 22); (24, 46)]%Z, [], [])) /\
    (forall j v, v 0 = 24%Z -> fst (at_two (onwards ZO 2 gyd (S j) v)) = false) /\
    seen (run91 at_two [1; 0; 0]%Z 4) = Ok ([(1, 1); (3, 4); (6, 10); (12, 22)]%Z, [false; false; false], [[1]; [0]; [0]; [0]]%Z).
Proof.
  split; [exact Z_ring|]; split; [intros v w E; unfold at_two; rewrite (E 0) by lia; reflexivity|].
  split; [vm_compute; reflexivity|]; eexists; split; [reflexivity|]; split; [vm_compute; reflexivity|]; split; [|vm_compute; reflexivity].
  intros j v V.
  match goal with |- context [onwards ZO 2 ?m] => set (gyd := m) end.
  assert (G : gyd 0 0 = 2%Z /\ gyd 0 1 = 0%Z) by (split; vm_compute; reflexivity); clearbody gyd.
  assert (B : forall i, Z.le 24 (onwards ZO 2 gyd i v 0)).
  { induction i as [|i IH]; [cbn [onwards]; rewrite V; lia|]; cbn [onwards Sum]; destruct G as [-> ->]; cbn [radd rmul ZO r0]; lia. }
  unfold at_two; cbn [fst]; apply Z.eqb_neq; specialize (B (S j)); lia.
Qed.
Print Assumptions C91_nonvacuous.
