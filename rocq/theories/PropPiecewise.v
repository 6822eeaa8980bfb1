(** The linear systems of the regimes and their equations: property C83. *)
From Verif Require Import Base Syntax Eval EvalSpec FactorySpec Indexing IndexingSpec IndexingProofs DynFunc DynSpec DynProofs DynProofs2 Nd NdInst NdProofs Mat SimSpec
  OrderProofs FirstOrderSpec SecondOrderSpec CalcSpec CalcProofs CalcProofs2 CalcProofs3 Linearize LinearizeSpec LinearizeProofs AccuracySpec AccuracyProofs AccuracyProofs2
  PropAccuracy Occbin OccbinSpec OccbinProofs PropDyn PropOccbin PropFirst PropSecond LinearExample Piecewise.
From Coq Require Import ZArith QArith Qcanon Ring Field.
Local Open Scope string_scope.
Local Open Scope list_scope.
Local Open Scope nat_scope.

Section Regroup.
  Variable F : Type.
  Variable O : rops F.
  Hypothesis RT : is_ring O.
  Let RT' : ring_theory (r0 O) (r1 O) (radd O) (rmul O) (rsub O) (ropp O) eq := RT.
  Add Ring Rregroup : RT'.
  Notation z := (r0 O).
  Notation rsum := (Nd.rsum F O).
  Notation lsum := (NdProofs.lsum F O).
  Lemma lsum_filter (f : nat -> bool) (h : nat -> F) : (forall v, f v = false -> h v = z) -> forall l, lsum (map h (filter f l)) = lsum (map h l).
  Proof.
    intros H l; induction l as [|v l IH]; [reflexivity|]; cbn [filter map NdProofs.lsum]; destruct (f v) eqn:E; cbn [map NdProofs.lsum]; rewrite IH; [reflexivity|].
    rewrite (H v E); ring.
  Qed.
  (** The columns of a Jacobian by date. *)
  Lemma regroup (L : list (list Z)) (k : nat) (J : nat -> nat -> F) (q : system F) lag now next u i :
    let n := List.length L in
    (forall v, v < n ->
       (forall j, nth_error (timed_vars L) j = Some (v, 1%Z) -> sA F q i v = J i j) /\ (at_k L v 1 = false -> sA F q i v = z) /\
       (forall j, nth_error (timed_vars L) j = Some (v, 0%Z) -> sB F q i v = J i j) /\ (at_k L v 0 = false -> sB F q i v = z) /\
       (forall j, nth_error (timed_vars L) j = Some (v, (-1)%Z) -> sC F q i v = J i j) /\ (at_k L v (-1) = false -> sC F q i v = z)) ->
    (forall j, j < k -> sE F q i j = J i (List.length (timed_vars L) + j)) ->
    rsum (List.length (timed_vars L) + k) (fun c => rmul O (J i c) (argument F L lag now next u c)) =
    radd O (radd O (radd O (rsum n (fun j => rmul O (sA F q i j) (next j))) (rsum n (fun j => rmul O (sB F q i j) (now j)))) (rsum n (fun j => rmul O (sC F q i j) (lag j))))
      (rsum k (fun j => rmul O (sE F q i j) (u j))).
  Proof.
    intros n H E; rewrite (rsum_split F O RT); f_equal.
    2:{ apply (rsum_ext F O); intros j Hj; rewrite (E j Hj); unfold argument; destruct (Nat.ltb_spec (List.length (timed_vars L) + j) (List.length (timed_vars L))); [lia|f_equal; f_equal; lia]. }
    pose (K := fun p : nat * Z => rmul O (if (snd p =? -1)%Z then sC F q i (fst p) else if (snd p =? 0)%Z then sB F q i (fst p) else sA F q i (fst p)) (dated F lag now next p)).
    transitivity (lsum (map K (timed_vars L))).
    - rewrite (rsum_lsum F O RT).
      transitivity (lsum (map K (map (fun c => nth c (timed_vars L) (0, 0%Z)) (seq 0 (List.length (timed_vars L)))))); [|rewrite map_nth_seq; reflexivity].
      rewrite map_map; f_equal; apply map_ext_in; intros c Hc; apply in_seq in Hc as [_ Hc]; rewrite Nat.add_0_l in Hc.
      unfold argument; rewrite (proj2 (Nat.ltb_lt _ _) Hc); unfold K; f_equal.
      assert (Hn := nth_error_nth' (timed_vars L) (0, 0%Z) Hc); set (p := nth c (timed_vars L) (0, 0%Z)) in *.
      assert (Hp : In p (timed_vars L)) by (apply nth_In; exact Hc).
      unfold timed_vars in Hp; apply in_flat_map in Hp as (s & Hs & Hp); apply in_map_iff in Hp as (v & Ev & Hv); apply filter_In in Hv as [Hv _]; apply in_seq in Hv as [_ Hv]; rewrite Nat.add_0_l in Hv; fold n in Hv.
      rewrite <- Ev in *; cbn [fst snd]; destruct (H v Hv) as (A1 & _ & B1 & _ & C1 & _); destruct Hs as [<-|[<-|[<-|[]]]]; cbn [Z.eqb Pos.eqb]; symmetry; auto.
    - unfold timed_vars; cbn [flat_map]; rewrite app_nil_r, !map_app, !map_map, !(lsum_app F O RT).
      assert (G : forall s (M x : nat -> F), (forall v, v < n -> K (v, s) = rmul O (M v) (x v)) -> (forall v, v < n -> at_k L v s = false -> M v = z) ->
        lsum (map (fun v => K (v, s)) (filter (fun v => at_k L v s) (seq 0 n))) = rsum n (fun j => rmul O (M j) (x j))).
      { intros s M x H1 H2; rewrite (rsum_lsum F O RT).
        assert (X : forall l, (forall v, In v l -> v < n) -> lsum (map (fun v => K (v, s)) (filter (fun v => at_k L v s) l)) = lsum (map (fun j => rmul O (M j) (x j)) l)).
        { induction l as [|v l IH]; intros Hl; [reflexivity|]; cbn [filter map NdProofs.lsum]; destruct (at_k L v s) eqn:Ea; cbn [map NdProofs.lsum]; rewrite IH by (intros y Hy; apply Hl; right; exact Hy).
          - rewrite H1 by (apply Hl; left; reflexivity); reflexivity.
          - rewrite (H2 v) by (try (apply Hl; left; reflexivity); exact Ea); ring. }
        apply X; intros v Hv; apply in_seq in Hv; lia. }
      fold n.
      rewrite (G (-1)%Z (fun v => sC F q i v) lag), (G 0%Z (fun v => sB F q i v) now), (G 1%Z (fun v => sA F q i v) next);
        [ring|intros v Hv; reflexivity|intros v Hv; apply (H v Hv)|intros v Hv; reflexivity|intros v Hv; apply (H v Hv)|intros v Hv; reflexivity|intros v Hv; apply (H v Hv)].
  Qed.
End Regroup.

Lemma partial_ext F O le (R R' : list F -> F -> Prop) x j d : (forall y v, List.length y = List.length x -> (R y v -> R' y v)) -> partial F O le R x j d -> partial F O le R' x j d.
Proof. intros H (v & s & Vs & E); exists v, s; split; [exact Vs|]; revert E; apply near_mono; intros t; apply H, bump_length. Qed.

Section Regime.
  Variable F : Type.
  Variable O : rops F.
  Variable inv : F -> F.
  Variable FT : is_field O inv.
  Variable le : F -> F -> Prop.
  Hypothesis OR : is_ordered O le.
  Let FT' : field_theory (r0 O) (r1 O) (radd O) (rmul O) (rsub O) (ropp O) (rdiv O) inv eq := FT.
  Add Field Fregime : FT'.
  Let RT : is_ring O := F_R FT'.
  Variable P : ops F.
  Variable fns : string -> smooth_fun F.
  Variable pows : F -> smooth_fun F.
  Hypothesis HI : interprets F O le P fns pows.
  Variable endog stoch : list string.
  Variable exprs : list (ast F).
  Variable params : list (string * F).
  Hypothesis Rd : readable endog stoch exprs params.
  Hypothesis Lx : List.length exprs = List.length endog.
  Variable grad : (list F -> res F) -> list F -> res (list F).
  Variable jacobian : (list F -> res (list F)) -> list F -> res (list (list F)).
  Hypothesis Hd : forall l, signature F endog exprs l -> differentiates F O le P endog stoch exprs params grad jacobian l.
  Variable own ref : list F.
  Hypothesis Lo : List.length own = List.length endog.
  Hypothesis Lr : List.length ref = List.length endog.
  Hypothesis So : smooth_at F O endog stoch exprs params fns pows own.
  Hypothesis Sr : smooth_at F O endog stoch exprs params fns pows ref.
  Notation z := (r0 O).
  Notation res l := (residual F P endog stoch params l).

  Lemma regime_facts : exists m (lls : list (string * list Z)) J q, build F endog stoch exprs params = Ok m /\ offsets_of endog exprs (map snd lls) /\ signature F endog exprs (timed_vars (map snd lls)) /\
    regime_system F O P grad m own ref = Ok q /\
    let L := map snd lls in let l := timed_vars L in let w := List.length l + List.length stoch in
    (forall i e c, nth_error exprs i = Some e -> c < w -> partial F O le (res l e) (rest_point F O stoch l own) c (J i c)) /\
    (forall i e, nth_error exprs i = Some e -> steady_residual F O P endog stoch params e ref (sD F q i)) /\
    (forall i v, i < List.length endog -> v < List.length endog ->
       (forall j, nth_error l j = Some (v, 1%Z) -> sA F q i v = J i j) /\ (at_k L v 1 = false -> sA F q i v = z) /\
       (forall j, nth_error l j = Some (v, 0%Z) -> sB F q i v = J i j) /\ (at_k L v 0 = false -> sB F q i v = z) /\
       (forall j, nth_error l j = Some (v, (-1)%Z) -> sC F q i v = J i j) /\ (at_k L v (-1) = false -> sC F q i v = z)) /\
    (forall i j, j < List.length stoch -> sE F q i j = J i (List.length l + j)).
  Proof.
    destruct Rd as (Nd & Nc & R & W & Dj).
    destruct (arrays F O inv FT le OR P fns pows HI endog stoch exprs params Nd Nc R W Dj own Lo So grad jacobian Hd) as (m & lls & J & H & xs & Em & El & Ei & Sg & EJ & EH & Fx & G).
    pose proof (Ne endog stoch Nd) as Ne; destruct (lls_offsets F endog exprs lls Ne R El) as (Of & Ir & Nk); pose proof (proj1 Of) as LL.
    destruct (C67_constant_partial F P z endog stoch exprs params ref Nd Nc R W Dj Lr) as (m' & v & Em' & Ev & Cd); rewrite Em in Em'; injection Em' as <-.
    assert (Ds : exists d, Forall2 (EvalSpec.value F P (steady_plain F endog stoch params z ref) (fun x _ => steady_plain F endog stoch params z ref x)) exprs d).
    { assert (X : forall es, incl es exprs -> exists d, Forall2 (EvalSpec.value F P (steady_plain F endog stoch params z ref) (fun x _ => steady_plain F endog stoch params z ref x)) es d).
      { intros es; induction es as [|e es IH]; intros Hes; [exists []; apply Forall2_nil|].
        destruct IH as (d & IH); [intros y Hy; apply Hes; right; exact Hy|].
        destruct (proj1 (Forall_forall _ _) Sr e (Hes e (or_introl eq_refl))) as (y & T).
        exists (y :: d); apply Forall2_cons; [exact (tame_value F O le P fns pows HI params _ _ e y T)|exact IH]. }
      apply X, incl_refl. }
    destruct Ds as (d & Hds); pose proof (proj2 (Cd d) Hds) as Ed.
    destruct (C67_coefficients F O lls (List.length stoch) (array (map snd lls) (List.length stoch)) J (fun i => nth i d z) Nk Ir) as (q & Eq & Q1 & Q2 & Q3); [apply index_manager_array; assumption|].
    assert (N : List.length lls = List.length endog) by (rewrite <- (map_length snd); exact LL).
    exists m, lls, J, q; split; [exact Em|]; split; [exact Of|]; split; [exact Sg|]; split.
    { unfold regime_system, regime_of_model; rewrite EJ; cbn [bind]; rewrite Ev; cbn [bind]; rewrite Ed; cbn [bind g_index g_jac g_resid]; rewrite Ei; exact Eq. }
    cbn zeta; split; [|split; [|split; [|exact Q3]]].
    - intros i e c He Hc; destruct (Forall2_get _ _ _ i e Fx He) as (x & Hx & B & Fn & HR & _); destruct (G i x Hx) as [G1 _].
      rewrite (G1 c Hc); apply (ex_partial F O inv FT le OR _ x B); try assumption; apply rest_length.
    - intros i e He; destruct (Forall2_get _ _ _ i e Hds He) as (y & Hy & V); rewrite Q2, (nth_error_nth _ _ _ Hy); exact V.
    - intros i v0 Hi Hv; rewrite <- N in Hi, Hv; exact (Q1 i v0 Hi Hv).
  Qed.

  (** The derivatives at one point are those at the other. *)
  Hypothesis Same : forall l e c d, signature F endog exprs l -> In e exprs -> c < List.length l + List.length stoch ->
    partial F O le (res l e) (rest_point F O stoch l own) c d -> partial F O le (res l e) (rest_point F O stoch l ref) c d.
  Lemma regime_expansion : exists m q, build F endog stoch exprs params = Ok m /\ regime_system F O P grad m own ref = Ok q /\
    forall before now after u : nat -> F, exists b : nat -> F,
      (equations F O (List.length endog) (List.length stoch) q before now after u <-> forall i, i < List.length endog -> radd O (sD F q i) (b i) = z) /\
      forall i e, nth_error exprs i = Some e -> exists r,
        near F O le (fun t => equation_value F P endog stoch params (level F O ref (fun v => rmul O t (before v))) (level F O ref (fun v => rmul O t (now v)))
          (level F O ref (fun v => rmul O t (after v))) (fun s => rmul O t (u s)) e (r t)) /\
        jet1 F O le r (sD F q i) (b i).
  Proof.
    destruct regime_facts as (m & lls & J & q & Em & Of & Sg & Eq & PJ & QD & QA & QE).
    exists m, q; split; [exact Em|]; split; [exact Eq|]; intros before now after u.
    set (L := map snd lls) in *; set (l := timed_vars L) in *; pose proof (proj1 Of) as LL; fold L in LL.
    exists (fun i => Nd.rsum F O (List.length l + List.length stoch) (fun c => rmul O (J i c) (argument F L before now after u c))).
    assert (RG : forall i, i < List.length endog -> Nd.rsum F O (List.length l + List.length stoch) (fun c => rmul O (J i c) (argument F L before now after u c)) =
      radd O (radd O (radd O (Nd.rsum F O (List.length endog) (fun j => rmul O (sA F q i j) (after j))) (Nd.rsum F O (List.length endog) (fun j => rmul O (sB F q i j) (now j))))
        (Nd.rsum F O (List.length endog) (fun j => rmul O (sC F q i j) (before j)))) (Nd.rsum F O (List.length stoch) (fun j => rmul O (sE F q i j) (u j)))).
    { intros i Hi; unfold l; rewrite (regroup F O RT L (List.length stoch) J q before now after u i); [rewrite LL; reflexivity| |intros j Hj; apply QE, Hj].
      intros v Hv; rewrite LL in Hv; exact (QA i v Hi Hv). }
    split.
    - unfold equations; change (SimSpec.Sum F O) with (Nd.rsum F O); split; intros E i Hi; specialize (E i Hi); [rewrite (RG i Hi), <- E; ring|rewrite (RG i Hi) in E; rewrite <- E; ring].
    - intros i e He.
      destruct Rd as (Nd & Nc & R & W & Dj).
      destruct (expansion F O inv FT le OR P fns pows HI endog stoch exprs params Nd Nc R W Dj ref Lr Sr grad jacobian Hd)
        as (m' & lls' & J' & H & Em' & El' & Ei' & Sg' & EJ' & _ & _ & EX).
      assert (Es : timed_vars (map snd lls') = l) by exact (signature_unique F endog exprs _ _ Sg' Sg).
      rewrite Es in EX, EJ', Sg'; cbn zeta in EX.
      destruct (arrays F O inv FT le OR P fns pows HI endog stoch exprs params Nd Nc R W Dj ref Lr Sr grad jacobian Hd) as (m2 & lls2 & J2 & H2 & xs & Em2 & El2 & Ei2 & Sg2 & EJ2 & _ & Fx & G).
      assert (Es2 : timed_vars (map snd lls2) = l) by exact (signature_unique F endog exprs _ _ Sg2 Sg).
      cbn zeta in EJ2, Fx, G; rewrite Es2 in EJ2, Fx, G.
      rewrite Em' in Em2; injection Em2 as <-; rewrite EJ' in EJ2; injection EJ2 as EJ2; subst J2.
      set (w := List.length l + List.length stoch) in *.
      assert (JJ : forall c, c < w -> J' i c = J i c).
      { assert (LE : List.length endog = List.length L) by congruence.
        pose (f := dynamic_func F P e (map (col_name endog) (timed_vars L) ++ stoch) params).
        assert (Cf : computes F w f (res l e)).
        { destruct (proj1 (Forall_forall _ _) W e (nth_error_In _ _ He)) as ((We & Wa & Wf) & Wd & Wo & _).
          intros y Hy v; unfold f; rewrite <- (firstn_skipn (List.length l) y) at 1.
          assert (L1 : List.length (firstn (List.length l) y) = List.length l) by (rewrite firstn_length; unfold w in Hy; lia).
          assert (L2 : List.length (skipn (List.length l) y) = List.length stoch) by (rewrite skipn_length; unfold w in Hy; lia).
          apply (dynamic_value F endog stoch params L LE Nd Nc _ _ L1 P L2); assumption. }
        pose proof (rest_length F O stoch ref l) as Lw; fold w in Lw.
        destruct (Forall2_get _ _ _ i e Fx He) as (x & Hx & B & Fn & HR & _); destruct (G i x Hx) as [G1 _].
        assert (PJ' : forall c, c < w -> partial F O le (fun y v => f y = Ok v) (rest_point F O stoch l ref) c (J' i c)).
        { intros c Hc; rewrite (G1 c Hc); apply (partial_ext F O le (res l e)); [intros y v Hy Hv; apply Cf; [congruence|exact Hv]|].
          apply (ex_partial F O inv FT le OR _ x B); assumption. }
        assert (PJ2 : forall c, c < w -> partial F O le (fun y v => f y = Ok v) (rest_point F O stoch l ref) c (J i c)).
        { intros c Hc; apply (partial_ext F O le (res l e)); [intros y v Hy Hv; apply Cf; [congruence|exact Hv]|].
          apply (Same l e c (J i c) Sg (nth_error_In _ _ He) Hc), (PJ i e c He Hc). }
        destruct (proj1 (Hd l Sg e f (nth_error_In _ _ He) Cf) _ Lw) as (r & _ & _ & Ur); [intros c Hc; eexists; exact (PJ' c Hc)|].
        intros c Hc; pose proof (Ur c _ Hc (PJ' c Hc)) as U1; pose proof (Ur c _ Hc (PJ2 c Hc)) as U2; congruence. }
      pose (y := fun t => map (argument F L (level F O ref (fun v => rmul O t (before v))) (level F O ref (fun v => rmul O t (now v))) (level F O ref (fun v => rmul O t (after v))) (fun s => rmul O t (u s))) (seq 0 w)).
      destruct (EX y (argument F L before now after u) (fun _ => z)) with (i := i) (e := e) as (r & v & Nr & Tv & Uv & Jr); [| |exact He|].
      + intros t; unfold y; rewrite map_length, seq_length; reflexivity.
      + intros c Hc; apply (jet2_ext F O inv FT le OR) with (fun t => radd O (nth c (rest_point F O stoch l ref) z) (rmul O t (argument F L before now after u c))).
        * apply (near_all F O inv FT le OR); intros t; unfold y.
          rewrite (arg_mul F O L); unfold l; rewrite <- (arg_level F O inv FT stoch L ref) by exact Hc.
          rewrite (nth_indep _ z (argument F L (level F O ref (fun v => rmul O t (before v))) (level F O ref (fun v => rmul O t (now v))) (level F O ref (fun v => rmul O t (after v))) (fun s => rmul O t (u s)) 0)) by (rewrite map_length, seq_length; exact Hc).
          rewrite (map_nth (argument F L _ _ _ _)), seq_nth by exact Hc; reflexivity.
        * eapply (jet2_eq F O le); [apply (jet2_add F O inv FT le OR (fun _ => nth c (rest_point F O stoch l ref) z)); [apply (jet2_const F O inv FT le OR)|apply (jet2_line F O inv FT le OR)]| | |]; ring.
      + exists r; split.
        * revert Nr; apply near_mono; intros t; unfold y, w, l; apply residual_value.
        * rewrite (Uv _ (QD i e He)) in Jr; rewrite <- (rsum_ext F O w (fun c => rmul O (J' i c) (argument F L before now after u c))) by (intros c Hc; rewrite (JJ c Hc); reflexivity).
          apply (jet2_jet1 F O inv FT le OR _ _ _ _ Jr).
  Qed.
End Regime.

(** ** C83: the systems of the regimes are their equations, linearised *)

(** What the system of a regime holds: the derivatives of its equations at its own steady state
    [own], and the values of its equations at the steady state [ref] of the reference model. *)
Theorem C83_coefficients :
  forall (F : Type) (O : rops F) (inv : F -> F) (le : F -> F -> Prop) (P : ops F) (fns : string -> smooth_fun F) (pows : F -> smooth_fun F)
    (grad : (list F -> res F) -> list F -> res (list F)) (jacobian : (list F -> res (list F)) -> list F -> res (list (list F)))
    (endog stoch : list string) (exprs : list (ast F)) (params : list (string * F)) (own ref : list F),
  is_field O inv -> is_ordered O le -> interprets F O le P fns pows ->
  readable endog stoch exprs params -> List.length exprs = List.length endog ->
  (forall l, signature F endog exprs l -> differentiates F O le P endog stoch exprs params grad jacobian l) ->
  List.length own = List.length endog -> List.length ref = List.length endog ->
  smooth_at F O endog stoch exprs params fns pows own -> smooth_at F O endog stoch exprs params fns pows ref ->
  exists m l q, build F endog stoch exprs params = Ok m /\ signature F endog exprs l /\ regime_system F O P grad m own ref = Ok q /\
    forall i e, nth_error exprs i = Some e ->
      let slope c d := partial F O le (residual F P endog stoch params l e) (rest_point F O stoch l own) c d in
      (forall v c, nth_error l c = Some (v, 1%Z) -> slope c (sA F q i v)) /\ (forall v, v < List.length endog -> ~ In (v, 1%Z) l -> sA F q i v = r0 O) /\
      (forall v c, nth_error l c = Some (v, 0%Z) -> slope c (sB F q i v)) /\ (forall v, v < List.length endog -> ~ In (v, 0%Z) l -> sB F q i v = r0 O) /\
      (forall v c, nth_error l c = Some (v, (-1)%Z) -> slope c (sC F q i v)) /\ (forall v, v < List.length endog -> ~ In (v, (-1)%Z) l -> sC F q i v = r0 O) /\
      (forall s, s < List.length stoch -> slope (List.length l + s) (sE F q i s)) /\
      steady_residual F O P endog stoch params e ref (sD F q i).
Proof.
  intros F O inv le P fns pows grad jacobian endog stoch exprs params own ref FT OR HI Rd Lx Hd Lo Lr So Sr.
  destruct (regime_facts F O inv FT le OR P fns pows HI endog stoch exprs params Rd grad jacobian Hd own ref Lo Lr So Sr) as (m & lls & J & q & Em & Of & Sg & Eq & PJ & QD & QA & QE).
  exists m, (timed_vars (map snd lls)), q; split; [exact Em|]; split; [exact Sg|]; split; [exact Eq|]; cbn zeta in *; set (L := map snd lls) in *; pose proof (proj1 Of) as LL; fold L in LL.
  intros i e He; assert (Hi : i < List.length endog) by (rewrite <- Lx; apply nth_error_Some; congruence).
  assert (Tv : forall c v s, nth_error (timed_vars L) c = Some (v, s) -> v < List.length endog /\ c < List.length (timed_vars L) + List.length stoch).
  { intros c v s H; assert (c < List.length (timed_vars L)) by (apply nth_error_Some; congruence); split; [|lia].
    apply nth_error_In in H; unfold timed_vars in H; apply in_flat_map in H as (s' & _ & H); apply in_map_iff in H as (v' & E & H); injection E as -> ->.
    apply filter_In in H as [H _]; apply in_seq in H; lia. }
  assert (Ab : forall v s, In s [(-1)%Z; 0%Z; 1%Z] -> v < List.length endog -> ~ In (v, s) (timed_vars L) -> at_k L v s = false).
  { intros v s Hs Hv Hn; destruct (at_k L v s) eqn:E; [|reflexivity]; exfalso; apply Hn; unfold timed_vars; apply in_flat_map; exists s; split; [exact Hs|].
    apply (in_map (fun w => (w, s))), filter_In; split; [apply in_seq; lia|exact E]. }
  split; [|split; [|split; [|split; [|split; [|split; [|split]]]]]].
  - intros v c H; destruct (Tv c v _ H) as [Hv Hc]; rewrite (proj1 (QA i v Hi Hv) c H); exact (PJ i e c He Hc).
  - intros v Hv Hn; apply (QA i v Hi Hv), Ab; [cbn; auto|exact Hv|exact Hn].
  - intros v c H; destruct (Tv c v _ H) as [Hv Hc]; rewrite (proj1 (proj2 (proj2 (QA i v Hi Hv))) c H); exact (PJ i e c He Hc).
  - intros v Hv Hn; apply (QA i v Hi Hv), Ab; [cbn; auto|exact Hv|exact Hn].
  - intros v c H; destruct (Tv c v _ H) as [Hv Hc]; rewrite (proj1 (proj2 (proj2 (proj2 (proj2 (QA i v Hi Hv))))) c H); exact (PJ i e c He Hc).
  - intros v Hv Hn; apply (QA i v Hi Hv), Ab; [cbn; auto|exact Hv|exact Hn].
  - intros s Hs; rewrite (QE i s Hs); apply (PJ i e _ He); lia.
  - exact (QD i e He).
Qed.
Print Assumptions C83_coefficients.

(** Full statement: the system of a regime holds at given deviations from the steady state of
    the reference model exactly when the expansion of its equations around that steady state,
    to first order, is zero there.  [r t] is the value of an equation when the deviations are
    scaled by [t], and [sD q i + b i t] is its expansion.  Proved for regimes whose derivatives
    at their own steady state are those at the reference's: that is so if the steady states are
    the same, or the equations linear. *)
Theorem C83_partial :
  forall (F : Type) (O : rops F) (inv : F -> F) (le : F -> F -> Prop) (P : ops F) (fns : string -> smooth_fun F) (pows : F -> smooth_fun F)
    (grad : (list F -> res F) -> list F -> res (list F)) (jacobian : (list F -> res (list F)) -> list F -> res (list (list F)))
    (endog stoch : list string) (exprs : list (ast F)) (params : list (string * F)) (own ref : list F),
  is_field O inv -> is_ordered O le -> interprets F O le P fns pows ->
  readable endog stoch exprs params -> List.length exprs = List.length endog ->
  (forall l, signature F endog exprs l -> differentiates F O le P endog stoch exprs params grad jacobian l) ->
  List.length own = List.length endog -> List.length ref = List.length endog ->
  smooth_at F O endog stoch exprs params fns pows own -> smooth_at F O endog stoch exprs params fns pows ref ->
  own = ref \/
  (forall l e c d, signature F endog exprs l -> In e exprs -> c < List.length l + List.length stoch ->
     partial F O le (residual F P endog stoch params l e) (rest_point F O stoch l own) c d -> partial F O le (residual F P endog stoch params l e) (rest_point F O stoch l ref) c d) ->
  exists m q, build F endog stoch exprs params = Ok m /\ regime_system F O P grad m own ref = Ok q /\
    forall before now after u : nat -> F, exists b : nat -> F,
      (equations F O (List.length endog) (List.length stoch) q before now after u <-> forall i, i < List.length endog -> radd O (sD F q i) (b i) = r0 O) /\
      forall i e, nth_error exprs i = Some e -> exists r,
        near F O le (fun t => equation_value F P endog stoch params (level F O ref (fun v => rmul O t (before v))) (level F O ref (fun v => rmul O t (now v)))
          (level F O ref (fun v => rmul O t (after v))) (fun s => rmul O t (u s)) e (r t)) /\
        jet1 F O le r (sD F q i) (b i).
Proof.
  intros F O inv le P fns pows grad jacobian endog stoch exprs params own ref FT OR HI Rd Lx Hd Lo Lr So Sr Hs.
  apply (regime_expansion F O inv FT le OR P fns pows HI endog stoch exprs params Rd Lx grad jacobian Hd own ref Lo Lr So Sr).
  destruct Hs as [->|Hs]; [intros l e c d _ _ _ Hp; exact Hp|exact Hs].
Qed.
Print Assumptions C83_partial.

(** A reference model whose first equation is x = rho x(-1) + rho + e, with the steady state
    x = 1, y = 0, z = 2; the alternative is the model of C76, whose steady state is x = y = 0,
    z = 1. *)
Local Open Scope Qc_scope.
Definition pref1 : ast Qc := Bin BSub (Var "x") (Bin BAdd (Bin BAdd (Bin BMul (Var "rho") (PVar "x" (-1))) (Var "rho")) (Var "e")).
Definition pref : list Qc := [z1; z0; q 2 1].
Definition pdev : nat -> Qc := fun v => nth v [z1; z0; z1] z0.
Lemma pref_steady : Forall (fun e => steady_residual Qc QO q_ops lendog lstoch lparams e pref z0) [pref1; leq2; leq3].
Proof.
  apply Forall_cons; [|apply Forall_cons; [|apply Forall_cons; [|apply Forall_nil]]].
  - replace z0 with (z1 - (q 1 2 * z1 + q 1 2 + z0)) by (apply Qc_is_canon; vm_compute; reflexivity); unfold steady_residual, pref1; cbn zeta.
    repeat match goal with
    | |- EvalSpec.value _ _ _ _ (Bin BSub _ _) (?a - ?b) => apply (V_bin _ _ _ _ BSub) with a b; [| |reflexivity]
    | |- EvalSpec.value _ _ _ _ (Bin BAdd _ _) (?a + ?b) => apply (V_bin _ _ _ _ BAdd) with a b; [| |reflexivity]
    | |- EvalSpec.value _ _ _ _ (Bin BMul _ _) (?a * ?b) => apply (V_bin _ _ _ _ BMul) with a b; [| |reflexivity]
    | |- EvalSpec.value _ _ _ _ (PVar _ _) _ => constructor; unfold steady_plain; cbn [lookup lparams String.eqb Ascii.eqb Bool.eqb]
    | |- EvalSpec.value _ _ _ _ (Var _) _ => constructor; unfold steady_plain; cbn [lookup lparams String.eqb Ascii.eqb Bool.eqb]; try reflexivity
    end.
    all: first [left; exists 0%nat; split; reflexivity|right; split; [cbn; tauto|reflexivity]].
  - replace z0 with (s_residual 1 pref) by (apply Qc_is_canon; vm_compute; reflexivity); apply s_residual_is; reflexivity.
  - replace z0 with (s_residual 2 pref) by (apply Qc_is_canon; vm_compute; reflexivity); apply s_residual_is; reflexivity.
Qed.
Local Close Scope Qc_scope.

Ltac invert_value := repeat match goal with
  | H : EvalSpec.value _ _ _ _ (Bin _ _ _) _ |- _ => inversion H; clear H; subst
  | H : EvalSpec.value _ _ _ _ (Var _) _ |- _ => inversion H; clear H; subst
  | H : EvalSpec.value _ _ _ _ (PVar _ _) _ |- _ => inversion H; clear H; subst
  | H : EvalSpec.value _ _ _ _ (Num _) _ |- _ => inversion H; clear H; subst
  end.
Local Open Scope Qc_scope.
Lemma leq1_value lag now next u v : equation_value Qc q_ops lendog lstoch lparams lag now next u leq1 v ->
  v = now 0%nat - (q 1 2 * lag 0%nat + u 0%nat + lag 0%nat * (lag 0%nat + u 0%nat)).
Proof.
  assert (X : forall i, nth_error lendog i = Some "x" -> i = 0%nat) by (intros [|[|[|[|i]]]] H; try discriminate H; reflexivity).
  assert (U : forall i, nth_error lstoch i = Some "e" -> i = 0%nat) by (intros [|[|[|i]]] H; try discriminate H; reflexivity).
  assert (NX : forall s, nth_error lstoch s <> Some "x") by (intros [|[|[|s]]]; discriminate).
  assert (NE : forall i, nth_error lendog i <> Some "e") by (intros [|[|[|[|i]]]]; discriminate).
  intros H; unfold equation_value, leq1 in H; invert_value; cbn [lookup lparams String.eqb Ascii.eqb Bool.eqb] in *.
  repeat match goal with
  | H : (exists i, nth_error lendog i = Some "x" /\ _) \/ _ |- _ => destruct H as [(? & ?Hi & ->)|(? & ?Hi & _)]; [apply X in Hi; subst|exfalso; eapply NX; exact Hi]
  | H : (exists i, nth_error lendog i = Some "e" /\ _) \/ _ |- _ => destruct H as [(? & ?Hi & _)|(? & ?Hi & ->)]; [exfalso; eapply NE; exact Hi|apply U in Hi; subst]
  | H : exists i, nth_error lendog i = Some "x" /\ _ |- _ => destruct H as (? & ?Hi & ->); apply X in Hi; subst
  end.
  repeat match goal with H : o_bin q_ops _ _ _ = Ok _ |- _ => cbn in H; injection H as <- end.
  reflexivity.
Qed.

Definition psystem : res (system Qc) := do m <- build Qc lendog lstoch lmodel lparams; regime_system Qc QO q_ops qgrad m lss pref.
Lemma psystem_holds q : psystem = Ok q -> equations Qc QO 3 2 q pdev pdev (fun _ => z0) (fun _ => z0) /\ sD Qc q 0%nat = Qcopp (Q2Qc (1 # 2)).
Proof.
  intros H; assert (E : exists q0, psystem = Ok q0 /\
    (forall i, (i < 3)%nat -> Qcplus (Qcplus (Qcplus (Qcplus (SimSpec.Sum Qc QO 3 (fun j => sA Qc q0 i j * z0)) (SimSpec.Sum Qc QO 3 (fun j => sB Qc q0 i j * pdev j)))
      (SimSpec.Sum Qc QO 3 (fun j => sC Qc q0 i j * pdev j))) (SimSpec.Sum Qc QO 2 (fun j => sE Qc q0 i j * z0))) (sD Qc q0 i) = 0) /\ sD Qc q0 0%nat = Qcopp (Q2Qc (1 # 2))).
  { destruct psystem as [q0|] eqn:E0; [|vm_compute in E0; discriminate E0]; exists q0; split; [reflexivity|].
    unfold psystem in E0; vm_compute in E0; injection E0 as <-.
    split; [intros [|[|[|i]]] Hi; [| | |lia]|]; apply Qc_is_canon; vm_compute; reflexivity. }
  destruct E as (q0 & E & H1 & H2); rewrite E in H; injection H as ->; split; [|exact H2].
  intros i Hi; exact (H1 i Hi).
Qed.
Local Close Scope Qc_scope.

(** Without that restriction the statement is false, also when [own] is the steady state of the
    regime and [ref] that of a reference model [refs]: the derivatives are taken at the wrong
    point. *)
Theorem C83_refuted :
  ~ (forall (F : Type) (O : rops F) (inv : F -> F) (le : F -> F -> Prop) (P : ops F) (fns : string -> smooth_fun F) (pows : F -> smooth_fun F)
    (grad : (list F -> res F) -> list F -> res (list F)) (jacobian : (list F -> res (list F)) -> list F -> res (list (list F)))
    (endog stoch : list string) (exprs refs : list (ast F)) (params : list (string * F)) (own ref : list F),
  is_field O inv -> is_ordered O le -> interprets F O le P fns pows ->
  readable endog stoch exprs params -> List.length exprs = List.length endog -> List.length refs = List.length endog ->
  (forall l, signature F endog exprs l -> differentiates F O le P endog stoch exprs params grad jacobian l) ->
  List.length own = List.length endog -> List.length ref = List.length endog ->
  smooth_at F O endog stoch exprs params fns pows own -> smooth_at F O endog stoch exprs params fns pows ref ->
  Forall (fun e => steady_residual F O P endog stoch params e own (r0 O)) exprs ->
  Forall (fun e => steady_residual F O P endog stoch params e ref (r0 O)) refs ->
  exists m q, build F endog stoch exprs params = Ok m /\ regime_system F O P grad m own ref = Ok q /\
    forall before now after u : nat -> F, exists b : nat -> F,
      (equations F O (List.length endog) (List.length stoch) q before now after u <-> forall i, i < List.length endog -> radd O (sD F q i) (b i) = r0 O) /\
      forall i e, nth_error exprs i = Some e -> exists r,
        near F O le (fun t => equation_value F P endog stoch params (level F O ref (fun v => rmul O t (before v))) (level F O ref (fun v => rmul O t (now v)))
          (level F O ref (fun v => rmul O t (after v))) (fun s => rmul O t (u s)) e (r t)) /\
        jet1 F O le r (sD F q i) (b i)).
Proof.
  intros H.
  destruct (H Qc QO Qcinv Qcle q_ops no_function squares qgrad qjacobian lendog lstoch lmodel [pref1; leq2; leq3] lparams lss pref
    Q_field Q_ordered q_interprets lmodel_readable eq_refl eq_refl lmodel_differentiates eq_refl eq_refl (lmodel_smooth lss eq_refl) (lmodel_smooth pref eq_refl)
    lmodel_steady pref_steady) as (m & s & Em & Es & G); clear H.
  assert (Ep : psystem = Ok s) by (unfold psystem; rewrite Em; exact Es).
  destruct (psystem_holds s Ep) as [Hq HD].
  destruct (G pdev pdev (fun _ => z0) (fun _ => z0)) as (b & Hb & Hr).
  pose proof (proj1 Hb Hq 0 ltac:(cbn; lia)) as B0; rewrite HD in B0.
  destruct (Hr 0 leq1 eq_refl) as (r & Hn & z & Vz & J).
  rewrite HD in J.
  assert (E : b 0 = Qcopp (q 3 2)).
  { apply (slope_is (Qcopp (Q2Qc (1 # 2))) (b 0) (Qcopp (Q2Qc (1 # 2))) (Qcopp (q 3 2)) z (Qcopp z1) Vz).
    generalize (near_and Qc QO Qcinv Q_field Qcle Q_ordered _ _ Hn J); apply near_mono; intros t [Et Jt].
    apply leq1_value in Et; cbn [radd rmul QO] in *; rewrite <- Jt, Et; unfold level, pref, pdev; cbn [nth radd rmul QO r0].
    replace (q 3 2) with (Qcplus (Q2Qc (1 # 2)) z1) by (apply Qc_is_canon; vm_compute; reflexivity).
    change (q 1 2) with (Q2Qc (1 # 2)); unfold z1, z0.
    ring. }
  rewrite E in B0; cbn [radd r0 QO] in B0; apply (f_equal this) in B0; vm_compute in B0; discriminate B0.
Qed.
Print Assumptions C83_refuted.

(** The alternative of that example meets the hypotheses with its own steady state. *)
Example C83_nonvacuous : forall own ref : list Qc, List.length own = 3 -> List.length ref = 3 ->
  is_field QO Qcinv /\ is_ordered QO Qcle /\ interprets Qc QO Qcle q_ops no_function squares /\
  readable lendog lstoch lmodel lparams /\ List.length lmodel = List.length lendog /\
  (forall l, signature Qc lendog lmodel l -> differentiates Qc QO Qcle q_ops lendog lstoch lmodel lparams qgrad qjacobian l) /\
  smooth_at Qc QO lendog lstoch lmodel lparams no_function squares own /\ smooth_at Qc QO lendog lstoch lmodel lparams no_function squares ref /\
  exists s, psystem = Ok s.
Proof.
  intros own ref Ho Hr; split; [exact Q_field|]; split; [exact Q_ordered|]; split; [exact q_interprets|]; split; [exact lmodel_readable|]; split; [reflexivity|].
  split; [exact lmodel_differentiates|]; split; [exact (lmodel_smooth own Ho)|]; split; [exact (lmodel_smooth ref Hr)|].
  destruct psystem as [s|] eqn:E; [exists s; reflexivity|vm_compute in E; discriminate E].
Qed.
Print Assumptions C83_nonvacuous.
