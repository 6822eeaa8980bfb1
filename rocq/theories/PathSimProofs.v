(** Proofs for C93: simulated paths and the equations. *)
From Verif Require Import Base Syntax Eval EvalSpec FactorySpec Factory Indexing IndexingSpec IndexingProofs IndexingProofs2 DynFunc DynSpec DynProofs DynProofs2 PropDyn Vars ExprList
  ModelState ModelStateSpec ModelStateProofs ModelStateProofs2 Nd Mat NdProofs SimSpec OrderProofs Sim SimProofs SimProofs2 SimProofs3
  CalcSpec CalcProofs Linearize LinearizeSpec LinearizeProofs Steady SteadyValues SteadyValuesSpec PropSteadyValues
  FirstOrder FirstOrderSpec FirstOrderProofs FirstOrderCurrent AccuracySpec PropAccuracy SylvesterSpec SecondOrder Pipeline PipelineSpec PipelineProofs PathSim PathSimSpec.
From Coq Require Import Ring Field Permutation ZArith.
Local Open Scope nat_scope.
Local Open Scope list_scope.

(** ** Positions of the states *)
Lemma where_app m1 : forall m2 i, Indexing.where_ (m1 ++ m2) i = Indexing.where_ m1 i ++ Indexing.where_ m2 (i + List.length m1).
Proof.
  induction m1 as [|b m1 IH]; intros m2 i; cbn [app Indexing.where_ List.length]; [rewrite Nat.add_0_r; reflexivity|].
  rewrite IH, <- Nat.add_succ_comm; destruct b; reflexivity.
Qed.
Lemma where_none {A} (f : A -> bool) l : (forall v, In v l -> f v = false) -> forall i, Indexing.where_ (map f l) i = [].
Proof.
  induction l as [|a l IH]; intros H i; [reflexivity|]; cbn [map Indexing.where_]; rewrite H by (left; reflexivity).
  apply IH; intros v Hv; apply H; right; exact Hv.
Qed.
Lemma where_all {A} (f : A -> bool) l : (forall v, In v l -> f v = true) -> forall i, Indexing.where_ (map f l) i = seq i (List.length l).
Proof.
  induction l as [|a l IH]; intros H i; [reflexivity|]; cbn [map Indexing.where_ List.length seq]; rewrite H by (left; reflexivity).
  f_equal; apply IH; intros v Hv; apply H; right; exact Hv.
Qed.
Lemma state_positions L k : (forall i, i < List.length L -> at_k L i 0 = true) ->
  members is_state (dr (array L k)) = seq (List.length (members_of L (static L))) (List.length (members_of L (backward L))).
Proof.
  intros all0; unfold members, mask, dr; cbn [row_m row_0 row_p]; unfold permuted; rewrite mask3_map, (order_is L k all0).
  assert (E : forall v, In v (order L) -> is_state (nth v (row_m (array L k)) None) (nth v (row_0 (array L k)) None) (nth v (row_p (array L k)) None) = at_k L v (-1)).
  { intros v Hv; apply (order_in L k all0) in Hv; unfold is_state.
    change (row_m (array L k)) with (row_at (array L k) (-1)); rewrite (isnan_at L k (-1) v) by (exact Hv || lia); apply negb_involutive. }
  rewrite (map_ext_in _ (fun v => at_k L v (-1)) _ E); clear E.
  assert (C : forall c, (forall i, c i = true -> at_k L i (-1) = false) -> forall v, In v (members_of L c) -> at_k L v (-1) = false).
  { intros c H v Hv; apply filter_In in Hv as [_ Hv]; apply H, Hv. }
  assert (D : forall c, (forall i, c i = true -> at_k L i (-1) = true) -> forall v, In v (members_of L c) -> at_k L v (-1) = true).
  { intros c H v Hv; apply filter_In in Hv as [_ Hv]; apply H, Hv. }
  unfold order, St, PB, MX, PF; rewrite !map_app, where_app, where_none, app_nil_l, map_length, Nat.add_0_l; cycle 1.
  { apply C; intros i; unfold static; destruct (at_k L i (-1)); [discriminate|reflexivity]. }
  rewrite app_assoc, where_app, <- map_app, where_all.
  - rewrite where_none, app_nil_r; [|apply C; intros i; unfold pure_forward; destruct (at_k L i (-1)); [discriminate|reflexivity]].
    f_equal; symmetry; apply (Permutation_length (backward_perm L k all0)).
  - intros v Hv; apply in_app_iff in Hv as [Hv|Hv]; revert v Hv; apply D; intros i; unfold pure_backward, IndexingSpec.mixed; destruct (at_k L i (-1)); cbn [andb negb]; congruence.
Qed.
Lemma members_same L L' c c' : List.length L = List.length L' -> (forall i, i < List.length L -> c i = c' i) -> members_of L c = members_of L' c'.
Proof. intros E H; unfold members_of; rewrite <- E; apply filter_ext_in; intros i Hi; apply in_seq in Hi; apply H; lia. Qed.

(** The offsets fix the order and the positions. *)
Lemma same_places F endog (exprs : list (ast F)) L L' g k : occurs_with endog exprs L -> occurs_with endog exprs L' -> about F L' g ->
  (forall i, i < List.length L -> at_k L i 0 = true) ->
  dr_order (array L k) = rorder g /\ members is_state (dr (array L k)) = rstate g.
Proof.
  intros [E1 A1] [E2 A2] (_ & Ho & Hst & _) all0.
  assert (Q : forall i z, i < List.length L -> at_k L i z = at_k L' i z).
  { intros i z Hi; rewrite E1 in Hi; apply Bool.eq_iff_eq_true; rewrite (A1 i z Hi), (A2 i z Hi); reflexivity. }
  assert (LL : List.length L = List.length L') by congruence.
  rewrite (order_is L k all0), (state_positions L k all0); unfold order, St, PB, MX, PF; rewrite Ho, Hst; split.
  - rewrite (members_same L L' (static L) (static L') LL), (members_same L L' (pure_backward L) (pure_backward L') LL),
      (members_same L L' (IndexingSpec.mixed L) (IndexingSpec.mixed L') LL), (members_same L L' (pure_forward L) (pure_forward L') LL); [reflexivity|..];
      intros i Hi; unfold static, pure_backward, IndexingSpec.mixed, pure_forward; rewrite !(Q i) by exact Hi; reflexivity.
  - rewrite (members_same L L' (static L) (static L') LL), (members_same L L' (backward L) (backward L') LL); [reflexivity|..];
      intros i Hi; unfold static, backward; rewrite !(Q i) by exact Hi; reflexivity.
Qed.

(** ** From a rule to paths *)
Section Paths.
  Variable F : Type.
  Variable O : rops F.
  Variable finv : F -> F.
  Variable le : F -> F -> Prop.
  Variable P : ops F.
  Hypothesis FT : is_field O finv.
  Let FT' : field_theory (r0 O) (r1 O) (radd O) (rmul O) (rsub O) (ropp O) (rdiv O) finv eq := FT.
  Add Field Ffield93 : FT'.
  Let RT : is_ring O := F_R FT'.
  Local Notation "x + y" := (radd O x y).
  Local Notation "x * y" := (rmul O x y).
  Local Notation Sum := (SimSpec.Sum F O).

  Lemma equation_value_ext endog stoch params lag now next u lag' now' next' u' (e : ast F) v :
    (forall i, i < List.length endog -> lag i = lag' i) -> (forall i, i < List.length endog -> now i = now' i) ->
    (forall i, i < List.length endog -> next i = next' i) -> (forall i, i < List.length stoch -> u i = u' i) ->
    equation_value F P endog stoch params lag now next u e v -> equation_value F P endog stoch params lag' now' next' u' e v.
  Proof.
    intros H1 H2 H3 H4; assert (B : forall (l : list string) i x, nth_error l i = Some x -> i < List.length l) by (intros l i x H; apply nth_error_Some; congruence).
    unfold equation_value; apply value_ext_occ.
    - intros x w _; destruct (lookup x params); [reflexivity|]; split; (intros [(i & Hi & ->)|(i & Hi & ->)]; [left|right]; exists i; (split; [exact Hi|])); first [apply H2, (B _ _ _ Hi)|symmetry; apply H2, (B _ _ _ Hi)|apply H4, (B _ _ _ Hi)|symmetry; apply H4, (B _ _ _ Hi)].
    - intros x k w _; split; intros (i & Hi & ->); exists i; (split; [exact Hi|]); pose proof (B _ _ _ Hi) as Li; unfold dated; cbn [fst snd];
        rewrite (H1 i Li), (H2 i Li), (H3 i Li); reflexivity.
  Qed.

  Variable chol : nat -> (nat -> nat -> F) -> res (nat -> nat -> F).
  Variable endog stoch : list string.
  Variable params : list (string * F).
  Variable exprs : list (ast F).
  Variable ss : list F.
  Variable g : rule F.
  Variable M : smodel F.
  Variable R : nat -> nat -> F.
  Hypothesis W : proper g.
  Hypothesis D : SimProofs3.describes g M.
  Hypothesis Hss : m_ss M = ss.
  Hypothesis Hn : List.length endog = rn g.
  Hypothesis Hk : List.length stoch = rk g.
  Hypothesis Hw : 1 < rn g \/ rk g = 1.
  Hypothesis Hc : chol (rk g) (m_sigma M) = Ok R.
  Hypothesis Sol : forall (n : nat) (p : nat -> F) (e : nat -> nat -> F) (x u : nat -> F) (now : F -> nat -> F) (next : nat -> F -> nat -> F),
    centred F O (List.length stoch) n p e ->
    let lag t v := t * x v in
    let shock t l := t * u l in
    (forall t, decides F O g (lag t) (shock t) (now t)) ->
    (forall q t, q < n -> decides F O g (now t) (fun l => t * e q l) (next q t)) ->
    Forall (expected_small F O le P endog stoch params (small1 F O le) n p ss lag now next shock) exprs.

  Lemma rule_paths per noise : paths_solve F O le P endog stoch params exprs ss R
    (fun a i => Sim.simulate F O chol M (Sim.First (gy_of g) (gu_of g)) (Some a) per noise (Some i)).
  Proof using FT W D Hss Hn Hk Hw Hc Sol.
    unfold paths_solve; cbn zeta; intros T r u x N w e HT [Hp Hm].
    set (sh := fun q h t l => h * (if t =? S r then e q l else u t l)).
    set (init := fun h => V1 (List.length endog) (fun v => nth v ss (r0 O) + h * x v)).
    set (run := fun q h => Sim.simulate F O chol M (Sim.First (gy_of g) (gu_of g)) (Some (M2 T (List.length stoch) (sh q h))) per noise (Some (init h))).
    set (path := fun q h => match run q h with Ok p => p | Err _ => [] end).
    assert (Ls : List.length (m_ss M) = rn g) by apply D.
    assert (G : forall q h, run q h = Ok (path q h) /\ table F T (rn g) (path q h) /\ starts F g (fun v => h * x v) (SimProofs3.dev F O M (path q h)) /\
      obeys F O g T (SimProofs3.mixed F O (rk g) R (sh q h)) (SimProofs3.dev F O M (path q h))).
    { intros q h; destruct (simulate_first_model F O chol RT g M R T (sh q h) per noise (Some (init h)) (fun v => h * x v) W D Hw Hc ltac:(lia)) as (p & E & Tb & St & Ob).
      - right; unfold init; rewrite Hn, Ls; eexists; split; [reflexivity|]; intros v Hv; rewrite Hss; ring.
      - rewrite <- Hk in E; fold (run q h) in E; unfold path; rewrite E; auto. }
    set (dv := fun q h t v => SimProofs3.dev F O M (path q h) t v).
    assert (Lin : forall q h t v, t < T -> v < rn g -> dv q h t v = h * dv q (r1 O) t v).
    { intros q h t v Ht Hv; destruct (G q h) as (_ & _ & St & Ob), (G q (r1 O)) as (_ & _ & St1 & Ob1).
      replace (h * dv q (r1 O) t v) with (h * dv q (r1 O) t v + r0 O * dv q (r1 O) t v) by ring.
      apply (obeys_until F O RT g W T _ _ _ (fun t v => h * dv q (r1 O) t v + r0 O * dv q (r1 O) t v) t Ob (obeys_comb F O RT g T _ _ _ _ h (r0 O) Ob1 Ob1)); [|exact Ht| |exact Hv].
      - intros z Hz; unfold dv; rewrite (St z Hz), (St1 z Hz); ring.
      - intros s l _ _; unfold SimProofs3.mixed; change (SimSpec.Sum F O) with (rsum F O); rewrite <- !rsum_mul_l, <- rsum_add by exact RT; apply rsum_ext; intros j _; unfold sh; ring. }
    assert (Ag : forall q q' h t v, t <= S r -> v < rn g -> dv q h t v = dv q' h t v).
    { intros q q' h t v Ht Hv; destruct (G q h) as (_ & _ & St & Ob), (G q' h) as (_ & _ & St1 & Ob1).
      apply (obeys_until F O RT g W T _ _ _ _ t Ob Ob1); [intros z Hz; rewrite (St z Hz), (St1 z Hz); reflexivity|lia| |exact Hv].
      intros s l Hs _; unfold SimProofs3.mixed; change (SimSpec.Sum F O) with (rsum F O); apply rsum_ext; intros j _; unfold sh; destruct (Nat.eqb_spec s (S r)); [lia|reflexivity]. }
    assert (Val : forall q h t v, value F O (path q h) t v = nth v ss (r0 O) + dv q h t v) by (intros q h t v; unfold dv, SimProofs3.dev; rewrite Hss; ring).
    exists path; split; [intros q h; apply (G q h)|]; split; [intros q h; rewrite Hn; apply (G q h)|].
    split; [intros q q' h t v Ht Hv; rewrite !Val; f_equal; apply Ag; [exact Ht|rewrite <- Hn; exact Hv]|].
    assert (Cn : centred F O (List.length stoch) N w (fun q l => Sum (rk g) (fun j => e q j * R j l))).
    { split; [exact Hp|]; intros l _; change (SimSpec.Sum F O) with (rsum F O).
      transitivity (rsum F O (rk g) (fun j => R j l * rsum F O N (fun s => w s * e s j))).
      - transitivity (rsum F O N (fun s => rsum F O (rk g) (fun j => w s * (e s j * R j l)))).
        { apply rsum_ext; intros s _; rewrite <- rsum_mul_l by exact RT; reflexivity. }
        rewrite rsum_swap by exact RT; apply rsum_ext; intros j _; rewrite <- rsum_mul_l by exact RT; apply rsum_ext; intros s _; ring.
      - apply rsum_all_zero; [exact RT|]; intros j Hj; change (rsum F O) with (SimSpec.Sum F O); rewrite Hm by (rewrite Hk; exact Hj); ring. }
    assert (Now : forall h, decides F O g (fun v => h * dv 0 (r1 O) r v) (fun l => h * Sum (rk g) (fun j => u r j * R j l)) (dv 0 h (S r))).
    { intros h i Hi; destruct (G 0 h) as (_ & _ & _ & Ob); unfold dv at 1; rewrite (Ob r i) by (exact Hi || lia).
      change (SimSpec.Sum F O) with (rsum F O); f_equal; apply rsum_ext; intros j Hj; f_equal.
      - apply Lin; [lia|apply (state_lt F g W); exact Hj].
      - unfold SimProofs3.mixed; change (SimSpec.Sum F O) with (rsum F O); rewrite <- rsum_mul_l by exact RT; apply rsum_ext; intros j' _; unfold sh.
        destruct (Nat.eqb_spec r (S r)); [lia|ring]. }
    assert (Nxt : forall q h, q < N -> decides F O g (dv 0 h (S r)) (fun l => h * Sum (rk g) (fun j => e q j * R j l)) (dv q h (S (S r)))).
    { intros q h _ i Hi; destruct (G q h) as (_ & _ & _ & Ob); unfold dv at 1; rewrite (Ob (S r) i) by (exact Hi || lia).
      change (SimSpec.Sum F O) with (rsum F O); f_equal; apply rsum_ext; intros j Hj; f_equal.
      - apply Ag; [lia|apply (state_lt F g W); exact Hj].
      - unfold SimProofs3.mixed; change (SimSpec.Sum F O) with (rsum F O); rewrite <- rsum_mul_l by exact RT; apply rsum_ext; intros j' _; unfold sh.
        rewrite Nat.eqb_refl; ring. }
    pose proof (Sol N w _ _ _ _ _ Cn Now Nxt) as A; rewrite Hk; revert A; apply Forall_impl; intros eq (gap & E & Sm).
    exists gap; split; [|exact Sm]; intros q Hq; specialize (E q Hq); revert E; apply near_mono; intros h.
    apply equation_value_ext; unfold level; intros i Hi; try reflexivity; rewrite Val; f_equal; rewrite Hn in Hi.
    - rewrite (Ag q 0 h r i) by (exact Hi || lia); symmetry; apply Lin; [lia|exact Hi].
    - apply Ag; [lia|exact Hi].
  Qed.
End Paths.

(** ** The index of a solved model *)
Section Index.
  Variable F : Type.
  Variable O : rops F.
  Variable P : ops F.
  Variable ltb eqb : F -> F -> bool.
  Variable nan : F.
  Variable minimize : solver -> (list F -> res F) -> list F -> res (list F).
  Variable grad : (list F -> res F) -> list F -> res (list F).
  Variable jacobian : (list F -> res (list F)) -> list F -> res (list (list F)).
  Variable qr : nat -> nat -> mat F -> res (mat F * mat F).
  Variable rank : nat -> nat -> mat F -> nat.
  Variable ordqz : nat -> mat F -> mat F -> res (schur F).
  Variable inv : nat -> mat F -> res (mat F).
  Variable qz : nat -> mat F -> mat F -> res (mat F * mat F * mat F * mat F).
  Variable solve : nat -> nat -> mat F -> mat F -> res (mat F).
  Notation space := (whole_space F O P ltb nan minimize grad qr rank ordqz).
  Notation solver_ := (whole_solver F O P eqb nan minimize grad jacobian inv qz solve).
  Notation fresh := (ModelStateProofs.fresh F (space_of F) space).
  Variable finv : F -> F.
  Variable le : F -> F -> Prop.
  Variable fns : string -> smooth_fun F.
  Variable pows : F -> smooth_fun F.
  Hypothesis FT : is_field O finv.
  Hypothesis OR : is_ordered O le.
  Hypothesis HI : interprets F O le P fns pows.

  Lemma solved_index ns is (sv : list (svar F)) es sc x st dy sp s : fresh ns is sv es sc x st dy sp ->
    solver_ None is st dy sp = Ok s ->
    readable ns (map sv_name sv) es sc -> List.length es = List.length ns ->
    (forall l, signature F ns es l -> differentiates F O le P ns (map sv_name sv) es sc grad jacobian l) ->
    List.length (sp_ss sp) = List.length ns -> smooth_at F O ns (map sv_name sv) es sc fns pows (sp_ss sp) ->
    exists L k, x = array L k /\ occurs_with ns es L /\ forall i, i < List.length L -> at_k L i 0 = true.
  Proof using FT OR HI.
    intros H Es (Nd & Nc & R & W & Dj) Lx Hd Ls Sm.
    destruct (fresh_built F O P ltb nan minimize grad qr rank ordqz _ _ _ _ _ _ _ _ _ H) as (B & _ & _ & _ & J & S).
    assert (Hx : x = r_index F dy).
    { destruct H as (lls & _ & _ & _ & H & _); unfold new_dynamic in H; apply bind_ok in H as (u2 & _ & H); injection H as <-; reflexivity. }
    cbn [whole_solver] in Es; apply bind_ok in Es as ([gy gu] & Eg & _).
    destruct (expansion F O finv FT le OR P fns pows HI ns (map sv_name sv) es sc Nd Nc R W Dj (sp_ss sp) Ls Sm grad jacobian Hd)
      as (m' & lls & J' & H' & Em' & El & Ei & Sg & EJ & _ & _ & EX).
    rewrite B in Em'; injection Em' as <-; rewrite EJ in J; injection J as J.
    pose proof (Ne ns (map sv_name sv) Nd) as Nn.
    destruct (lls_offsets F ns es lls Nn R El) as (Of & Ir & Nk); pose proof (proj1 Of) as LL.
    rewrite Ei in S, Eg; rewrite <- J in S.
    exists (map snd lls), (List.length (map sv_name sv)); rewrite Hx, Ei; split; [reflexivity|]; split; [exact Of|].
    rewrite Lx, <- LL in S; exact (solved_current F O ltb qr rank ordqz inv solve (map snd lls) _ J' _ _ _ Ir S Eg).
  Qed.
End Index.
