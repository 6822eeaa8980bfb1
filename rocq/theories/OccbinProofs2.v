(** Occasionally binding constraints: the loop, the decision rule, the systems. *)
From Coq Require Import Sorting.Sorted.
From Verif Require Import Base Nd NdProofs SimSpec Mat MatProofs Indexing IndexingProofs IndexingProofs2 SummarySpec SummaryProofs Occbin OccbinSpec OccbinProofs.

(** ** Guess and verify *)

Section Loop.
  Variable F : Type.
  Variable H : Type.
  Variable path : H -> vec F -> vec F -> res (list (vec F)).
  Variable judge : H -> list (vec F) -> res (bool * H).
  Variable shift : H -> H.
  Variable Inv : H -> Prop.
  Hypothesis judge_inv : forall h g j, Inv h -> judge h g = Ok j -> Inv (snd j).
  Hypothesis shift_inv : forall h, Inv h -> Inv (shift h).

  Lemma iterate_spec : forall left init e o o', iterate F H path judge left init e o = Ok o' ->
    o_change F H o = true -> 1 <= left -> Inv (o_hypo F H o) ->
    exists h g j, Inv h /\ path h init e = Ok g /\ judge h g = Ok j /\
      o_guess F H o' = Some g /\ o_hypo F H o' = snd j /\ o_change F H o' = fst j /\
      o_iter F H o < o_iter F H o' <= o_iter F H o + left /\
      (o_change F H o' = true -> o_iter F H o' = o_iter F H o + left).
  Proof using judge_inv.
    induction left as [|left IH]; intros init e o o' E C L I; [lia|]; cbn [iterate] in E; rewrite C in E.
    destruct (path (o_hypo F H o) init e) as [g|] eqn:Ep; [|discriminate]; cbn [bind] in E.
    destruct (judge (o_hypo F H o) g) as [j|] eqn:Ej; [|discriminate]; cbn [bind] in E.
    destruct left as [|left]; [|destruct (fst j) eqn:Cj].
    - cbn in E; injection E as <-; exists (o_hypo F H o), g, j; cbn; repeat split; try assumption; lia.
    - apply IH in E; [|reflexivity|lia|apply (judge_inv _ _ _ I Ej)].
      destruct E as (h & g' & j' & ? & ? & ? & ? & ? & ? & B & C'); exists h, g', j'; repeat split; try assumption; cbn [o_iter] in *; try lia.
      intros Q; specialize (C' Q); lia.
    - cbn in E; injection E as <-; exists (o_hypo F H o), g, j; cbn; repeat split; try assumption; try lia; try (symmetry; exact Cj); try congruence.
  Qed.

  Variable vec_of : list F -> res (vec F).
  Lemma periods_spec max_iter periods : forall shocks t hypo init guess rows warns last, Inv hypo -> (max_iter = 0 -> guess = None) ->
    periods_loop F H path judge shift max_iter periods vec_of t shocks hypo init guess = Ok (rows, warns, last) ->
    List.length rows = List.length shocks /\ List.length warns = List.length shocks /\
    (shocks <> [] -> t + List.length shocks <= periods /\ 1 <= max_iter) /\
    (shocks = [] -> last = guess) /\
    forall s, s < List.length shocks -> exists h e g j, Inv h /\ vec_of (nth s shocks []) = Ok e /\
      path h (value F init rows s) e = Ok g /\ judge h g = Ok j /\ nth s warns false = fst j /\
      hd_error g = Some (value F init rows (S s)) /\ (S s = List.length shocks -> last = Some g).
  Proof using judge_inv shift_inv.
    induction shocks as [|shk shocks IH]; intros t hypo init guess rows warns last I G E; cbn [periods_loop] in E.
    - injection E as <- <- <-; repeat split; [congruence..|]; intros s Hs; cbn in Hs; lia.
    - destruct max_iter as [|mi]; [rewrite (G eq_refl) in E; discriminate|].
      destruct (vec_of shk) as [e|] eqn:Ee; [|discriminate]; cbn [bind] in E.
      set (mx := S mi) in *.
      destruct (iterate F H path judge mx init e (Outcome F H guess hypo true 0)) as [o|] eqn:Ei; [|discriminate]; cbn [bind] in E.
      apply iterate_spec in Ei; [|reflexivity|lia|exact I].
      destruct Ei as (h & g & j & Ih & Ep & Ej & Eg & Eh & Ec & _ & _).
      rewrite Eg in E; destruct g as [|first g]; [discriminate|].
      destruct (Nat.ltb_spec t periods) as [Lt|]; [|discriminate].
      destruct (periods_loop F H path judge shift mx periods vec_of (S t) shocks (shift (o_hypo F H o)) first (Some (first :: g))) as [[[rows' warns'] last']|] eqn:El; [|discriminate].
      cbn [bind] in E; injection E as <- <- <-.
      apply IH in El; [|apply shift_inv; rewrite Eh; apply (judge_inv _ _ _ Ih Ej)|discriminate].
      destruct El as (A & B & C & D & R); cbn [List.length]; split; [lia|]; split; [lia|]; split; [|split; [discriminate|]].
      + intros _; destruct shocks as [|x l]; [cbn [List.length]; lia|]; specialize (C ltac:(discriminate)); cbn [List.length] in *; lia.
      + intros [|s] Hs.
        * exists h, e, (first :: g), j; cbn [value nth hd_error]; repeat split; try assumption.
          intros Q; assert (N : shocks = []) by (destruct shocks; [reflexivity|cbn in Q; lia]); apply D; exact N.
        * destruct (R s ltac:(lia)) as (h' & e' & g' & j' & R1 & R2 & R3 & R4 & R5 & R6 & R7).
          exists h', e', g', j'; cbn [nth]; repeat split; try assumption.
          { replace (value F init (first :: rows') (S s)) with (value F first rows' s); [exact R3|].
            destruct s; [reflexivity|]; cbn [value nth]; apply nth_indep; unfold vec in *; lia. }
          { rewrite R6; f_equal; cbn [value nth]; apply nth_indep; unfold vec in *; lia. }
          { intros Q; apply R7; lia. }
  Qed.

  Lemma solve_spec (O : rops F) max_iter periods width shocks hypo init rows warns shocks' : Inv hypo ->
    (forall h i e g, Inv h -> path h i e = Ok g -> List.length g = S periods) ->
    solve_loop F O H path judge shift max_iter periods vec_of width shocks hypo init = Ok (rows, warns, shocks') ->
    List.length rows = periods /\ List.length warns = List.length shocks /\
    shocks' = shocks ++ repeat (repeat (r0 O) width) (periods - List.length shocks) /\
    List.length shocks <= periods /\ (1 <= periods -> 1 <= List.length shocks /\ 1 <= max_iter) /\
    forall s, s < List.length shocks -> exists h e g j, Inv h /\ vec_of (nth s shocks []) = Ok e /\
      path h (value F init rows s) e = Ok g /\ judge h g = Ok j /\ nth s warns false = fst j /\
      value F init rows (S s) = nth 0 g init /\
      (S s = List.length shocks -> forall t, s + t < periods -> value F init rows (S (s + t)) = nth t g init).
  Proof using judge_inv shift_inv.
    intros I Hg E; unfold solve_loop in E.
    destruct (periods_loop F H path judge shift max_iter periods vec_of 0 shocks hypo init None) as [[[rows0 warns0] last]|] eqn:El; [|discriminate].
    cbn [bind] in E; apply periods_spec in El; [|exact I|reflexivity].
    destruct El as (A & B & C & D & R).
    destruct (Nat.ltb_spec (List.length shocks) periods) as [L|L].
    - destruct last as [g|]; [|discriminate].
      assert (NE : shocks <> []) by (intros ->; discriminate (D eq_refl)).
      assert (Ls : 1 <= List.length shocks) by (destruct shocks; [congruence|cbn; lia]).
      destruct (C NE) as [C1 C2].
      destruct (R (List.length shocks - 1) ltac:(lia)) as (h & e & g' & j & R1 & R2 & R3 & R4 & R5 & R6 & R7).
      specialize (R7 ltac:(lia)); injection R7 as <-.
      assert (Lg := Hg h _ _ g R1 R3); destruct g as [|first g]; [discriminate|]; cbn [List.length tl] in *; injection Lg as Lg.
      assert (Lf : List.length (firstn (periods - List.length shocks) g) = periods - List.length shocks) by (rewrite firstn_length; lia).
      rewrite Lf, Nat.eqb_refl in E; injection E as <- <- <-.
      assert (V : forall s, s <= List.length shocks -> value F init (rows0 ++ firstn (periods - List.length shocks) g) s = value F init rows0 s).
      { intros [|s] Hs; [reflexivity|]; cbn [value]; apply app_nth1; unfold vec in *; lia. }
      split; [rewrite app_length, Lf; unfold vec in *; lia|]; split; [exact B|]; split; [reflexivity|]; split; [lia|]; split; [intros _; split; assumption|].
      intros s Hs; destruct (R s Hs) as (h' & e' & g' & j' & Q1 & Q2 & Q3 & Q4 & Q5 & Q6 & Q7).
      exists h', e', g', j'; rewrite !V by lia; repeat split; try assumption.
      + destruct g'; [discriminate|]; injection Q6 as ->; reflexivity.
      + intros Es t Ht; specialize (Q7 Es); injection Q7 as <-; destruct t as [|t].
        * rewrite Nat.add_0_r, V by lia; cbn in Q6; injection Q6 as ->; reflexivity.
        * cbn [value nth]; rewrite app_nth2 by (unfold vec in *; lia); replace (s + S t - List.length rows0) with t by (unfold vec in *; lia).
          assert (Ht' : t < List.length (firstn (periods - List.length shocks) g)) by lia.
          rewrite <- (firstn_skipn (periods - List.length shocks) g) at 2; rewrite app_nth1 by exact Ht'; reflexivity.
    - injection E as <- <- <-.
      assert (L' : List.length shocks <= periods).
      { destruct shocks; [cbn; lia|]; destruct (C ltac:(discriminate)) as [C1 _]; exact C1. }
      split; [lia|]; split; [exact B|]; split; [replace (periods - List.length shocks) with 0 by lia; cbn; rewrite app_nil_r; reflexivity|].
      split; [exact L'|]; split; [intros Hp; split; [lia|]; apply C; intros ->; cbn in L; lia|].
      intros s Hs; destruct (R s Hs) as (h' & e' & g' & j' & Q1 & Q2 & Q3 & Q4 & Q5 & Q6 & Q7).
      exists h', e', g', j'; repeat split; try assumption.
      + destruct g'; [discriminate|]; injection Q6 as ->; reflexivity.
      + intros Es t Ht; replace t with 0 by lia; rewrite Nat.add_0_r; destruct g'; [discriminate|]; injection Q6 as ->; reflexivity.
  Qed.
End Loop.

Lemma mismatch_consistent hypo cs : List.length cs = List.length hypo -> (mismatch hypo cs = false <-> consistent hypo cs).
Proof.
  revert cs; induction hypo as [|h hypo IH]; intros [|[c0 c1] cs] HL; try discriminate.
  - split; [intros _; split; [reflexivity|intros t Ht; cbn in Ht; lia]|reflexivity].
  - cbn [List.length] in HL; injection HL as HL; specialize (IH cs HL); unfold mismatch in *; cbn [combine existsb fst snd].
    rewrite Bool.orb_false_iff, IH; split.
    + intros (A & _ & B); split; [cbn; congruence|]; intros [|t] Ht; cbn [nth fst snd]; [destruct h, c0, c1; cbn in A; try discriminate; split; congruence|apply B; cbn in Ht; lia].
    + intros (_ & B); split.
      * destruct (B 0 ltac:(cbn; lia)) as [B1 B2]; cbn in B1, B2; destruct h, c0, c1; cbn; try reflexivity; try (discriminate (B1 eq_refl)); discriminate (B2 eq_refl).
      * split; [exact HL|]; intros t Ht; apply (B (S t)); cbn; lia.
Qed.
Lemma next_hypo_length hypo cs : List.length cs = List.length hypo -> List.length (next_hypo hypo cs) = List.length hypo.
Proof. intros E; unfold next_hypo; rewrite map_length, combine_length; lia. Qed.
Lemma shift1_length h p : List.length h = S p -> List.length (shift1 h) = S p.
Proof. intros E; unfold shift1; rewrite app_length; destruct h; cbn in *; lia. Qed.
Lemma shift2_length h p : List.length h = S p -> List.length (shift2 h) = S p.
Proof. intros E; unfold shift2; rewrite app_length; destruct h; cbn in *; lia. Qed.

(** ** Two constraints *)

Lemma ravel_length hypo : List.length (ravel hypo) = 2 * List.length hypo.
Proof. unfold ravel; rewrite app_length, !map_length; lia. Qed.
Lemma unravel_app a b : List.length a = List.length b -> unravel (a ++ b) = combine a b.
Proof.
  intros E; unfold unravel; rewrite app_length, E; replace (List.length b + List.length b) with (List.length b * 2) by lia; rewrite Nat.div_mul by lia.
  rewrite <- E, firstn_app, skipn_app, Nat.sub_diag, firstn_all, skipn_all; cbn; rewrite app_nil_r; reflexivity.
Qed.
Lemma combine_app_eq {A B} (a a' : list A) (b b' : list B) : List.length a = List.length b -> combine (a ++ a') (b ++ b') = combine a b ++ combine a' b'.
Proof. apply combine_app'. Qed.
(** Splitting the evaluated constraints in the halves of the two constraints. *)
Lemma halves {A} (cs : list A) m : List.length cs = 2 * m ->
  exists cs0 cs1, cs = cs0 ++ cs1 /\ List.length cs0 = m /\ List.length cs1 = m /\ firstn (List.length cs / 2) cs = cs0 /\ skipn (List.length cs / 2) cs = cs1.
Proof.
  intros E; rewrite E; replace (2 * m / 2) with m by (rewrite Nat.mul_comm, Nat.div_mul; lia).
  exists (firstn m cs), (skipn m cs); rewrite firstn_skipn, firstn_length, skipn_length; repeat split; lia.
Qed.

Lemma restrained_same hypo cs : List.length cs = List.length (ravel hypo) ->
  next_restrained hypo cs = unravel (next_hypo (ravel hypo) cs).
Proof.
  rewrite ravel_length; intros E; destruct (halves cs _ E) as (cs0 & cs1 & -> & L0 & L1 & E0 & E1).
  unfold next_restrained; rewrite E0, E1; unfold next_hypo, ravel.
  rewrite combine_app_eq by (rewrite map_length; lia); rewrite !map_app, !unravel_app by (rewrite !map_length, !combine_length, !map_length; lia).
  clear E E0 E1; revert cs0 cs1 L0 L1; induction hypo as [|[h0 h1] hypo IH]; intros [|[a0 b0] cs0] [|[a1 b1] cs1] L0 L1; try discriminate; [reflexivity|].
  cbn [List.length] in L0, L1; cbn [map combine fst snd]; rewrite IH by lia; reflexivity.
Qed.
Lemma judge2_restrained F constr hypo g : judge2 F true constr hypo g = judge2 F false constr hypo g.
Proof.
  unfold judge2; destruct (constr g) as [cs|e]; cbn [bind]; [|reflexivity].
  destruct (Nat.eqb_spec (List.length cs) (List.length (ravel hypo))) as [E|E]; [rewrite restrained_same by exact E; reflexivity|reflexivity].
Qed.
Lemma unravel_length l m : List.length l = 2 * m -> List.length (unravel l) = m.
Proof.
  intros E; unfold unravel; rewrite E; replace (2 * m / 2) with m by (rewrite Nat.mul_comm, Nat.div_mul; lia).
  rewrite combine_length, firstn_length, skipn_length; lia.
Qed.
Lemma judge2_length F r constr hypo g j : judge2 F r constr hypo g = Ok j -> List.length (snd j) = List.length hypo.
Proof.
  assert (X : judge2 F false constr hypo g = Ok j -> List.length (snd j) = List.length hypo).
  { unfold judge2; destruct (constr g) as [cs|e]; cbn [bind]; [|discriminate].
    destruct (Nat.eqb_spec (List.length cs) (List.length (ravel hypo))) as [E|E]; [|discriminate]; intros H; injection H as <-; cbn [snd].
    apply unravel_length; rewrite next_hypo_length by exact E; apply ravel_length. }
  destruct r; [rewrite judge2_restrained|]; exact X.
Qed.
Lemma judge1_length F constr hypo g j : judge1 F constr hypo g = Ok j -> List.length (snd j) = List.length hypo.
Proof.
  unfold judge1; destruct (constr g) as [cs|e]; cbn [bind]; [|discriminate].
  destruct (Nat.eqb_spec (List.length cs) (List.length hypo)) as [E|E]; [|discriminate]; intros H; injection H as <-; apply next_hypo_length; exact E.
Qed.

(** The loop depends on how the guess is judged only through the values. *)
Lemma iterate_ext F H path j j' left init e o : (forall h g, j h g = j' h g) -> iterate F H path j left init e o = iterate F H path j' left init e o.
Proof.
  intros E; revert o; induction left as [|left IH]; intros o; cbn [iterate]; [reflexivity|].
  destruct (o_change F H o); [|reflexivity]; destruct (path _ _ _); cbn [bind]; [|reflexivity].
  rewrite E; destruct (j' _ _); cbn [bind]; [apply IH|reflexivity].
Qed.
Lemma periods_loop_ext F H path j j' shift mi p vo : (forall h g, j h g = j' h g) -> forall shocks t hypo init guess,
  periods_loop F H path j shift mi p vo t shocks hypo init guess = periods_loop F H path j' shift mi p vo t shocks hypo init guess.
Proof.
  intros E; induction shocks as [|s l IH]; intros t hypo init guess; cbn [periods_loop]; [reflexivity|].
  destruct mi as [|mi].
  - cbn [bind]; destruct (o_guess _ _ _) as [g|]; [|reflexivity]; destruct g; [reflexivity|]; destruct (t <? p); [rewrite IH; reflexivity|reflexivity].
  - destruct (vo s); cbn [bind]; [|reflexivity]; rewrite (iterate_ext _ _ _ _ _ _ _ _ _ E).
    destruct (iterate _ _ _ _ _ _ _ _) as [o|]; cbn [bind]; [|reflexivity].
    destruct (o_guess _ _ o) as [g|]; [|reflexivity]; destruct g; [reflexivity|]; destruct (t <? p); [rewrite IH; reflexivity|reflexivity].
Qed.

(** ** The decision rule *)

Lemma index_of_nth l : NoDup l -> forall j, j < List.length l -> index_of (nth j l 0) l = Some j.
Proof.
  induction 1 as [|a l N D IH]; intros j Hj; [cbn in Hj; lia|]; destruct j as [|j]; cbn [nth index_of]; [rewrite Nat.eqb_refl; reflexivity|].
  cbn in Hj; destruct (Nat.eqb_spec a (nth j l 0)) as [E|E]; [exfalso; apply N; rewrite E; apply nth_In; lia|rewrite IH by lia; reflexivity].
Qed.
Lemma index_of_None v l : ~ In v l -> index_of v l = None.
Proof.
  induction l as [|a l IH]; intros H; [reflexivity|]; cbn [index_of]; destruct (Nat.eqb_spec a v) as [->|]; [exfalso; apply H; left; reflexivity|].
  rewrite IH; [reflexivity|intros G; apply H; right; exact G].
Qed.
Lemma index_of_position v l : StronglySorted le l -> NoDup l -> In v l -> index_of v l = Some (position v l) /\ position v l < List.length l.
Proof.
  intros S N H; apply (In_nth _ _ 0) in H as (j & Hj & <-); rewrite position_nth by assumption; split; [apply index_of_nth; assumption|exact Hj].
Qed.

Section Rule.
  Variable F : Type.
  Variable O : rops F.
  Variable x : indexes.
  Let n := n_endog x.
  Hypothesis Hp : Permutation (dr_order x) (seq 0 n).
  Let ns := List.length (dr_states x).

  Lemma dc_length : List.length (dc_order x) = n.
  Proof. unfold dc_order; rewrite argsort_length; exact (order_length x n Hp). Qed.
  Lemma dc_nth v : v < n -> nth (nth v (dc_order x) 0) (dr_order x) 0 = v /\ nth v (dc_order x) 0 < n.
  Proof.
    intros Hv; assert (E : map (fun i => nth i (dr_order x) 0) (dc_order x) = seq 0 n).
    { apply argsort_sorts; [|exact Hp]; clear; generalize 0, n; intros a m; revert a; induction m as [|m IH]; intros a; cbn [seq]; constructor; [apply IH|].
      apply Forall_forall; intros i Hi; apply in_seq in Hi; lia. }
    split.
    - set (g := fun i => nth i (dr_order x) 0) in *; assert (X : nth v (map g (dc_order x)) (g 0) = nth v (seq 0 n) (g 0)) by (rewrite E; reflexivity).
      rewrite map_nth, seq_nth in X by exact Hv; exact X.
    - assert (In (nth v (dc_order x) 0) (dc_order x)) by (apply nth_In; rewrite dc_length; exact Hv).
      apply argsort_bound in H; rewrite (order_length x n Hp) in H; exact H.
  Qed.
  Lemma states_length : List.length (members is_state x) = ns.
  Proof. unfold ns; symmetry; apply Permutation_length, (dr_states_perm x n Hp). Qed.
  Lemma dc_bound m : n <= m -> forallb (fun i => i <? m) (dc_order x) = true.
  Proof.
    intros Hm; apply forallb_forall; intros i Hi; apply Nat.ltb_lt; apply argsort_bound in Hi; rewrite (order_length x n Hp) in Hi; lia.
  Qed.

  Lemma rule_matrix_two (cy : nat -> nat -> F) : 2 <= n -> ns <> 1 ->
    exists gy, rule_matrix F O x (squeeze F (M2 n ns (fun i j => cy (nth i (dr_order x) 0) (nth j (dr_states x) 0)))) = Ok gy /\
      (forall v s, v < n -> In s (members is_state x) -> gy v s = cy v (nth (position s (members is_state x)) (dr_states x) 0)) /\
      (forall v w, v < n -> ~ In w (members is_state x) -> gy v w = r0 O).
  Proof.
    intros Hn Hs; unfold rule_matrix, squeeze.
    rewrite (proj2 (Nat.eqb_neq n 1)), (proj2 (Nat.eqb_neq ns 1)) by lia; cbn [take_rows]; rewrite dc_bound by lia; cbn [bind set_columns].
    rewrite dc_length, states_length; unfold fits; fold n; rewrite !Nat.eqb_refl; cbn [orb andb].
    eexists; split; [reflexivity|]; unfold at_; rewrite (proj2 (Nat.eqb_neq n 1)), (proj2 (Nat.eqb_neq ns 1)) by lia; split.
    - intros v s Hv Hi; destruct (index_of_position s (members is_state x)) as [E L]; [apply where_sorted|apply where_sorted|exact Hi|].
      rewrite E; destruct (dc_nth v Hv) as [-> _]; reflexivity.
    - intros v w Hv Hw; rewrite index_of_None by exact Hw; reflexivity.
  Qed.
  (** With one state variable the array of the rule is a vector; with one variable a number. *)
  Lemma rule_matrix_one (cy : nat -> nat -> F) : ns = 1 \/ n = 1 ->
    exists e, rule_matrix F O x (squeeze F (M2 n ns (fun i j => cy (nth i (dr_order x) 0) (nth j (dr_states x) 0)))) = Err e.
  Proof.
    intros Hc; unfold rule_matrix, squeeze; destruct (Nat.eqb_spec n 1) as [N1|N1].
    - destruct (Nat.eqb_spec ns 1) as [S1|S1]; [eexists; reflexivity|].
      assert (Z : ns = 0).
      { rewrite <- states_length in *; destruct (members is_state x) as [|a [|b l]] eqn:Em; [reflexivity|cbn in S1; lia|].
        assert (Ia := state_bound x n Hp a); assert (Ib := state_bound x n Hp b); rewrite Em in Ia, Ib; cbn in Ia, Ib.
        assert (Nd := proj2 (where_sorted (mask is_state x) 0)); fold (members is_state x) in Nd; rewrite Em in Nd.
        inversion Nd as [|? ? N _]; subst; exfalso; apply N; left; specialize (Ia ltac:(auto)); specialize (Ib ltac:(auto)); lia. }
      cbn [take_rows]; rewrite Z.
      destruct (forallb (fun i => i <? 0) (dc_order x)) eqn:Ef; [|eexists; reflexivity].
      assert (L := dc_length); destruct (dc_order x) as [|a l]; [cbn in L; lia|cbn in Ef; discriminate].
    - destruct Hc as [S1|]; [|contradiction]; rewrite S1; cbn [Nat.eqb take_rows]; rewrite dc_bound by lia; cbn [bind set_columns].
      rewrite dc_length, states_length, S1; unfold fits; cbn [orb]; rewrite (proj2 (Nat.eqb_neq n 1) N1); eexists; reflexivity.
  Qed.
  Lemma shock_matrix_ok k (cu : nat -> nat -> F) : 2 <= n ->
    exists gu, shock_matrix F x (squeeze F (M2 n k (fun i j => cu (nth i (dr_order x) 0) j))) = Ok (k, gu) /\
      forall v j, v < n -> j < k -> gu v j = cu v j.
  Proof.
    intros Hn; unfold shock_matrix, squeeze; rewrite (proj2 (Nat.eqb_neq n 1)) by lia; destruct (Nat.eqb_spec k 1) as [->|K]; cbn [take_rows]; rewrite dc_bound by lia; cbn [bind].
    - eexists; split; [reflexivity|]; intros v j Hv Hj; cbn; destruct (dc_nth v Hv) as [-> _]; f_equal; lia.
    - eexists; split; [reflexivity|]; intros v j Hv Hj; cbn; destruct (dc_nth v Hv) as [-> _]; reflexivity.
  Qed.
End Rule.

(** ** The linear systems *)

Definition present (row : list (option nat)) : list bool := map (fun o => negb (isnan o)) row.
Lemma where_index : forall row k v,
  match index_of (k + v) (where_ (present row) k) with
  | Some j => nth v row None = Some (nth j (not_nan (select (present row) row)) 0) /\ j < List.length (not_nan (select (present row) row))
  | None => nth v row None = None
  end.
Proof.
  induction row as [|[c|] row IH]; intros k v; cbn [present map isnan negb where_ select not_nan].
  - destruct v; reflexivity.
  - fold (present row); cbn [index_of]; destruct v as [|v].
    + rewrite Nat.add_0_r, Nat.eqb_refl; cbn; split; [reflexivity|lia].
    + destruct (Nat.eqb_spec k (k + S v)); [lia|]; replace (k + S v) with (S k + v) by lia; specialize (IH (S k) v).
      destruct (index_of (S k + v) (where_ (present row) (S k))); cbn [nth]; [|exact IH]; destruct IH as [A B]; split; [exact A|cbn; lia].
  - fold (present row); destruct v as [|v].
    + rewrite Nat.add_0_r, index_of_None; [reflexivity|]; intros Hi; apply where_bounds in Hi; lia.
    + replace (k + S v) with (S k + v) by lia; specialize (IH (S k) v); cbn [nth]; exact IH.
Qed.
Lemma where_present_length row : forall k, List.length (where_ (present row) k) = List.length (not_nan (select (present row) row)).
Proof. induction row as [|[c|] row IH]; intros k; cbn [present map isnan negb where_ select not_nan List.length]; [reflexivity|fold (present row); rewrite IH; reflexivity..]. Qed.

Lemma mask_back a : forall b c, List.length a = List.length b -> List.length a = List.length c -> mask3 is_backward a b c = present a.
Proof. induction a as [|u a IH]; intros [|v b] [|w c] Hb Hc; try discriminate; [reflexivity|]; cbn in *; rewrite IH by lia; reflexivity. Qed.
Lemma mask_cont a : forall b c, List.length a = List.length b -> List.length a = List.length c -> mask3 is_cont a b c = present b.
Proof. induction a as [|u a IH]; intros [|v b] [|w c] Hb Hc; try discriminate; [reflexivity|]; cbn in *; rewrite IH by lia; reflexivity. Qed.
Lemma mask_forw a : forall b c, List.length a = List.length b -> List.length a = List.length c -> mask3 is_forward a b c = present c.
Proof. induction a as [|u a IH]; intros [|v b] [|w c] Hb Hc; try discriminate; [reflexivity|]; cbn in *; rewrite IH by lia; reflexivity. Qed.

Section System.
  Variable F : Type.
  Variable O : rops F.
  Lemma set_block n row J :
    exists m, set_columns F O n (where_ (present row) 0) (M2 n (List.length (not_nan (select (present row) row))) (columns_of F (not_nan (select (present row) row)) J)) = Ok m /\
      forall i v, i < n -> m i v = match nth v row None with Some c => J i c | None => r0 O end.
  Proof.
    unfold set_columns; rewrite where_present_length; unfold fits; rewrite !Nat.eqb_refl; cbn [orb andb].
    eexists; split; [reflexivity|]; intros i v Hi; cbn beta.
    assert (W := where_index row 0 v); cbn [Nat.add] in W; destruct (index_of v (where_ (present row) 0)) as [j|].
    - destruct W as [-> Hj]; unfold columns_of, at_.
      assert (Ei : (if n =? 1 then 0 else i) = i) by (destruct (Nat.eqb_spec n 1); lia).
      assert (Ej : (if List.length (not_nan (select (present row) row)) =? 1 then 0 else j) = j) by (destruct (Nat.eqb_spec (List.length (not_nan (select (present row) row))) 1); lia).
      rewrite Ei, Ej; reflexivity.
    - rewrite W; reflexivity.
  Qed.
  Lemma partition_ok x J D : List.length (row_m x) = List.length (row_0 x) -> List.length (row_m x) = List.length (row_p x) ->
    exists q, partition F O x J D = Ok q /\ sD F q = D /\
      (forall i v, i < n_endog x -> sA F q i v = coefficient F O x J row_p i v) /\
      (forall i v, i < n_endog x -> sB F q i v = coefficient F O x J row_0 i v) /\
      (forall i v, i < n_endog x -> sC F q i v = coefficient F O x J row_m i v) /\
      (forall i j, j < n_exog x -> sE F q i j = J i (n_endog_inc x + j)).
  Proof.
    intros H0 H1; unfold partition, members, timed, row_of, mask; cbn [Z.eqb Pos.eqb bind].
    rewrite mask_back, mask_cont, mask_forw by assumption.
    destruct (set_block (n_endog x) (row_m x) J) as (c & -> & Hc); cbn [bind].
    destruct (set_block (n_endog x) (row_0 x) J) as (b & -> & Hb); cbn [bind].
    destruct (set_block (n_endog x) (row_p x) J) as (a & -> & Ha); cbn [bind].
    eexists; split; [reflexivity|]; cbn [sA sB sC sD sE]; split; [reflexivity|].
    split; [intros i v Hi; apply Ha; exact Hi|]; split; [intros i v Hi; apply Hb; exact Hi|]; split; [intros i v Hi; apply Hc; exact Hi|].
    intros i j Hj; unfold columns_of, exogenous_jacobian; rewrite seq_nth by exact Hj; reflexivity.
  Qed.
End System.

Lemma where_select {A} (zero : A) : forall row (ss : list A) k pre, List.length row = List.length ss -> List.length pre = k ->
  map (fun i => nth i (pre ++ ss) zero) (where_ (present row) k) = select (present row) ss.
Proof.
  induction row as [|o row IH]; intros [|a ss] k pre HL Hk; try discriminate; [reflexivity|].
  cbn [List.length] in HL; injection HL as HL.
  assert (R : map (fun i => nth i (pre ++ a :: ss) zero) (where_ (present row) (S k)) = select (present row) ss).
  { rewrite <- (IH ss (S k) (pre ++ [a]) HL ltac:(rewrite app_length; cbn; lia)); apply map_ext; intros i; rewrite <- app_assoc; reflexivity. }
  destruct o as [c|]; cbn [present map isnan negb where_ select]; fold (present row); [|exact R].
  rewrite R, app_nth2 by lia; rewrite Hk, Nat.sub_diag; reflexivity.
Qed.
Lemma translate_ok {A} (x : indexes) (zero : A) ss : List.length (row_m x) = List.length (row_0 x) -> List.length (row_m x) = List.length (row_p x) ->
  List.length ss = n_endog x ->
  exists v, translate_ss x zero ss = Ok v /\ forall k, stacked x ss zero k = v ++ repeat zero k.
Proof.
  intros H0 H1 HL; unfold translate_ss, members, mask; rewrite mask_back, mask_cont, mask_forw by assumption.
  assert (B : forall row, List.length row = n_endog x -> forall i, In i (where_ (present row) 0) -> i < List.length ss).
  { intros row Hr i Hi; apply where_bounds in Hi; unfold present in Hi; rewrite map_length in Hi; lia. }
  assert (Fb : forallb (fun i => i <? List.length ss) (where_ (present (row_m x)) 0 ++ where_ (present (row_0 x)) 0 ++ where_ (present (row_p x)) 0) = true).
  { apply forallb_forall; intros i Hi; apply Nat.ltb_lt; unfold n_endog in *; rewrite !in_app_iff in Hi; destruct Hi as [Hi|[Hi|Hi]]; (eapply B; [|exact Hi]; unfold n_endog; lia). }
  rewrite Fb; eexists; split; [reflexivity|]; intros k; unfold n_endog in HL.
  rewrite !map_app, !(where_select zero _ ss 0 []) by (try reflexivity; lia); unfold stacked, present; rewrite <- !app_assoc; reflexivity.
Qed.

(** ** Names *)

Lemma insert_perm s l : Permutation (insert_name s l) (s :: l).
Proof.
  induction l as [|a l IH]; cbn [insert_name]; [reflexivity|]; destruct (s <=? a)%string; [reflexivity|].
  rewrite IH; apply perm_swap.
Qed.
Lemma sort_perm l : Permutation (sort_names l) l.
Proof. induction l as [|a l IH]; [reflexivity|]; cbn [sort_names fold_right]; rewrite insert_perm; constructor; exact IH. Qed.
Lemma leb_total a b : (a <=? b)%string = false -> (b <=? a)%string = true.
Proof. unfold String.leb; rewrite (String.compare_antisym a b); destruct (String.compare b a); cbn; congruence. Qed.
Lemma ascii_lt_trans a b c : Ascii.compare a b = Lt -> Ascii.compare b c = Lt -> Ascii.compare a c = Lt.
Proof. unfold Ascii.compare; rewrite !N.compare_lt_iff; lia. Qed.
Lemma compare_trans : forall a b c, String.compare a b <> Gt -> String.compare b c <> Gt -> String.compare a c <> Gt.
Proof.
  induction a as [|x a IH]; intros [|y b] [|z c] H1 H2; cbn [String.compare] in *; try congruence.
  destruct (Ascii.compare x y) eqn:E1; [| |congruence]; destruct (Ascii.compare y z) eqn:E2; try congruence.
  - apply Ascii.compare_eq_iff in E1, E2; subst; assert (R : Ascii.compare z z = Eq) by (unfold Ascii.compare; apply N.compare_refl); rewrite R; exact (IH b c H1 H2).
  - apply Ascii.compare_eq_iff in E1; subst; rewrite E2; discriminate.
  - apply Ascii.compare_eq_iff in E2; subst; rewrite E1; discriminate.
  - rewrite (ascii_lt_trans _ _ _ E1 E2); discriminate.
Qed.
Lemma leb_trans a b c : (a <=? b)%string = true -> (b <=? c)%string = true -> (a <=? c)%string = true.
Proof.
  unfold String.leb; intros H1 H2; assert (T := compare_trans a b c).
  destruct (String.compare a b); try discriminate; destruct (String.compare b c); try discriminate; destruct (String.compare a c); try reflexivity; exfalso; apply T; congruence.
Qed.
Lemma leb_anti a b : (a <=? b)%string = true -> (b <=? a)%string = true -> a = b.
Proof.
  unfold String.leb; rewrite (String.compare_antisym a b); destruct (String.compare b a) eqn:E; cbn; try congruence.
  intros _ _; apply String.compare_eq_iff in E; congruence.
Qed.
Definition sle (a b : string) : Prop := (a <=? b)%string = true.
Lemma insert_sorted s l : StronglySorted sle l -> StronglySorted sle (insert_name s l).
Proof.
  induction 1 as [|a l S IH A]; cbn [insert_name]; [repeat constructor|].
  destruct (s <=? a)%string eqn:E.
  - constructor; [constructor; assumption|]; constructor; [exact E|]; apply Forall_impl with (2 := A); intros b Hb; exact (leb_trans _ _ _ E Hb).
  - constructor; [exact IH|]; apply (Permutation_Forall (Permutation_sym (insert_perm s l))); constructor; [apply leb_total; exact E|exact A].
Qed.
Lemma sort_sorted l : StronglySorted sle (sort_names l).
Proof. induction l as [|a l IH]; cbn [sort_names fold_right]; [constructor|apply insert_sorted; exact IH]. Qed.
Lemma sorted_unique l : forall l', StronglySorted sle l -> StronglySorted sle l' -> Permutation l l' -> l = l'.
Proof.
  induction l as [|a l IH]; intros l' S S' P; [apply Permutation_nil in P; congruence|].
  destruct l' as [|b l']; [apply Permutation_sym, Permutation_nil in P; discriminate|].
  apply StronglySorted_inv in S as [S A]; apply StronglySorted_inv in S' as [S' B]; rewrite Forall_forall in A, B.
  assert (E : a = b).
  { assert (Ia : In a (b :: l')) by (apply (Permutation_in _ P); left; reflexivity).
    assert (Ib : In b (a :: l)) by (apply (Permutation_in _ (Permutation_sym P)); left; reflexivity).
    destruct Ia as [->|Ia]; [reflexivity|]; destruct Ib as [->|Ib]; [reflexivity|]; apply leb_anti; [apply A; exact Ib|apply B; exact Ia]. }
  subst b; f_equal; apply IH; try assumption; apply (Permutation_cons_inv P).
Qed.
Lemma sort_same a b : sort_names a = sort_names b <-> Permutation a b.
Proof.
  split; intros H.
  - rewrite <- (sort_perm a), H; apply sort_perm.
  - apply sorted_unique; [apply sort_sorted..|]; rewrite !sort_perm; exact H.
Qed.

(** ** Innovations *)

Lemma set_many_spec F O k l : forall shock v e, set_many F k l shock v = Ok e ->
  (forall a, a < List.length l -> ~ In (nth a l 0) (skipn (S a) l) -> e (nth a l 0) = nth a shock (r0 O)) /\
  (forall j, ~ In j l -> e j = v j).
Proof.
  induction l as [|x l IH]; intros [|s shock] v e; cbn [set_many]; [intros E; injection E as <-; split; [cbn; lia|reflexivity]..|discriminate|].
  destruct (x <? k); [|discriminate]; intros E; apply IH in E as (H1 & H2); split.
  - intros [|a] Ha N; cbn [nth skipn] in *; [|apply H1; [cbn in Ha; lia|exact N]].
    rewrite H2 by exact N; rewrite Nat.eqb_refl; reflexivity.
  - intros j N; rewrite H2 by (intros I; apply N; right; exact I); destruct (Nat.eqb_spec j x) as [->|]; [exfalso; apply N; left; reflexivity|reflexivity].
Qed.
Definition positions_of (ex : exog_index) : list nat := match ex with OneShock i => [i] | Shocks l => l end.
Lemma innovations_spec F O k ex shock e : innovations F O k ex shock = Ok e -> shock_vector F O (positions_of ex) shock e.
Proof.
  destruct ex as [i|l]; cbn [innovations positions_of]; [|apply (set_many_spec F O)].
  destruct (i <? k); [|discriminate]; destruct shock as [|s [|]]; [discriminate| |discriminate]; intros E; injection E as <-; split.
  - intros [|a] Ha _; [|cbn in Ha; lia]; cbn; rewrite Nat.eqb_refl; reflexivity.
  - intros j N; destruct (Nat.eqb_spec j i) as [->|]; [exfalso; apply N; left; reflexivity|reflexivity].
Qed.
