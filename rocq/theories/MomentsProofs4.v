(** Means at second order; correlations. *)
From Verif Require Import Base Semantics Nd NdProofs SimSpec Sim SimProofs2 SimProofs3 Mat MatProofs MomentsSpec Moments MomentsProofs MomentsProofs2 SummaryProofs.
From Coq Require Import Ring Field Permutation.

Section Mean.
  Variable F : Type.
  Variable O : rops F.
  Variable inv : F -> F.
  Hypothesis FT : is_field O inv.
  Hypothesis two_nz : twice_one O <> r0 O.
  Let FT' : field_theory (r0 O) (r1 O) (radd O) (rmul O) (rsub O) (ropp O) (rdiv O) inv eq := FT.
  Add Field MeanField : FT'.
  Lemma RT4 : is_ring O. Proof. exact (F_R FT). Qed.
  Notation rsum := (rsum F O).
  Notation mmul := (mmul F O).
  Notation isM := (isM F).
  Notation half := (rdiv O (r1 O) (twice_one O)).
  Variable lyap : nat -> mat F -> mat F -> res (mat F).
  Hypothesis HL : solves_lyapunov F O lyap.
  Variable lsolve : nat -> mat F -> vec F -> res (vec F).
  Hypothesis HS : solves_linear F O lsolve.

  Definition isV (n : nat) (a : nd F) (f : vec F) : Prop := exists f', a = V1 n f' /\ veq F n f' f.
  Lemma isV_refl n f : isV n (V1 n f) f.
  Proof. exists f; split; reflexivity. Qed.
  Lemma isV_add n a b f h : isV n a f -> isV n b h -> exists p, nadd F O a b = Ok p /\ isV n p (fun i => radd O (f i) (h i)).
  Proof.
    intros (f' & -> & Hf) (h' & -> & Hh); cbn; rewrite axis_same; eexists; split; [reflexivity|].
    eexists; split; [reflexivity|]; intros i Hi; cbn beta; rewrite !(at_lt n i), Hf, Hh by assumption; reflexivity.
  Qed.
  Lemma isV_half n a f : isV n a f -> isV n (nscale_div F O a (two F O)) (fun i => rmul O half (f i)).
  Proof.
    intros (f' & -> & Hf); eexists; split; [reflexivity|]; intros i Hi; cbn beta; rewrite Hf by exact Hi.
    change (two F O) with (twice_one O); field; exact two_nz.
  Qed.
  Lemma isMV r c a b f h : isM r c a f -> isV c b h -> exists p, nmatmul F O a b = Ok p /\ isV r p (fun i => rsum c (fun k => rmul O (f i k) (h k))).
  Proof.
    intros (f' & -> & Hf) (h' & -> & Hh); cbn; rewrite Nat.eqb_refl; eexists; split; [reflexivity|].
    eexists; split; [reflexivity|]; intros i Hi; apply rsum_ext; intros k Hk; rewrite Hf, Hh by assumption; reflexivity.
  Qed.
  Lemma isV_take idx n a f : isV n a f -> (forall i, In i idx -> i < n) -> exists b, take F idx a = Ok b /\ isV (List.length idx) b (fun i => f (nth i idx 0)).
  Proof.
    intros (f' & -> & Hf) H; cbn [take]; rewrite (proj2 (forallb_forall _ _)) by (intros i Hi; apply Nat.ltb_lt, H, Hi).
    eexists; split; [reflexivity|]; eexists; split; [reflexivity|]; intros i Hi; apply Hf, H, nth_In, Hi.
  Qed.
  Lemma isM_take idx n c a f : isM n c a f -> (forall i, In i idx -> i < n) -> exists b, take F idx a = Ok b /\ isM (List.length idx) c b (fun i => f (nth i idx 0)).
  Proof.
    intros (f' & -> & Hf) H; cbn [take]; rewrite (proj2 (forallb_forall _ _)) by (intros i Hi; apply Nat.ltb_lt, H, Hi).
    eexists; split; [reflexivity|]; eexists; split; [reflexivity|]; intros i j Hi Hj; apply Hf; [apply H, nth_In, Hi|exact Hj].
  Qed.
  Lemma isV_flatten n a f : 0 < n -> isM n n a f -> isV (n * n) (flatten F a) (fun i => f (i / n) (i mod n)).
  Proof.
    intros Hn (f' & -> & Hf); eexists; split; [reflexivity|]; intros i Hi; cbn [flat]; apply Hf.
    - apply Nat.div_lt_upper_bound; lia.
    - apply Nat.mod_upper_bound; lia.
  Qed.
  (** X vec(V) as a double sum *)
  Lemma flat_sum n (x : nat -> F) (f : mat F) : 0 < n ->
    rsum (n * n) (fun j => rmul O (x j) (f (j / n) (j mod n))) = rsum n (fun a => rsum n (fun b => rmul O (x (a * n + b)) (f a b))).
  Proof using FT.
    intros Hn; rewrite (rsum_prod F O inv FT); apply rsum_ext; intros a _; apply rsum_ext; intros b Hb.
    rewrite Nat.div_add_l, (Nat.div_small b n), Nat.add_0_r by lia; rewrite (Nat.add_comm (a * n) b), Nat.mod_add, (Nat.mod_small b n) by lia; reflexivity.
  Qed.

  (** A matrix with its columns squeezed, and what [dot] makes of it. *)
  Definition isS (r c : nat) (a : nd F) (f : mat F) : Prop := (c <> 1 /\ isM r c a f) \/ (c = 1 /\ isV r a (fun i => f i 0)).
  Definition isVS (n : nat) (a : nd F) (f : vec F) : Prop := isV n a f \/ (n = 1 /\ a = S0 (f 0)).
  Lemma isS_squeeze r c f : 1 < r -> isS r c (squeeze F (M2 r c f)) f.
  Proof.
    intros Hr; unfold squeeze; destruct (Nat.eqb_spec r 1); [lia|]; destruct (Nat.eqb_spec c 1) as [->|]; [right|left]; split; auto; [apply isV_refl|apply isM_refl].
  Qed.
  Lemma isS_half r c a f : isS r c a f -> isS r c (nscale_div F O a (two F O)) (fun i j => rmul O half (f i j)).
  Proof.
    intros [[N (f' & -> & Hf)]|[-> H]]; [left|right]; split; auto.
    - eexists; split; [reflexivity|]; intros i j Hi Hj; cbn beta; rewrite Hf by assumption; change (two F O) with (twice_one O); field; exact two_nz.
    - exact (isV_half _ _ _ H).
  Qed.
  Lemma isS_take idx n c a f : isS n c a f -> (forall i, In i idx -> i < n) -> exists b, take F idx a = Ok b /\ isS (List.length idx) c b (fun i => f (nth i idx 0)).
  Proof.
    intros [[N H]|[-> H]] Hi.
    - destruct (isM_take idx n c a f H Hi) as (b & E & Hb); exists b; split; [exact E|left; auto].
    - destruct (isV_take idx n a _ H Hi) as (b & E & Hb); exists b; split; [exact E|right; auto].
  Qed.
  Lemma isV_addS n a b f h : isV n a f -> isVS n b h -> exists p, nadd F O a b = Ok p /\ isV n p (fun i => radd O (f i) (h i)).
  Proof.
    intros Ha [Hb|[-> ->]]; [exact (isV_add _ _ _ _ _ Ha Hb)|]; destruct Ha as (f' & -> & Hf); eexists; split; [reflexivity|].
    eexists; split; [reflexivity|]; intros i Hi; assert (i = 0) by lia; subst i; cbn beta; rewrite Hf by lia; reflexivity.
  Qed.
  Lemma rsum_one (h : nat -> F) : rsum 1 h = h 0.
  Proof using FT. cbn; ring. Qed.
  (** A product that is made. *)
  Lemma dot_made dot r c a b f h p : dot = ndot F O \/ (dot = matmul_scalar F O /\ 1 < r) -> isS r c a f -> isV c b h -> dot a b = Ok p ->
    isVS r p (fun i => rsum c (fun k => rmul O (f i k) (h k))).
  Proof using FT.
    intros Hd Ha Hb E; destruct Ha as [[N Ha]|[-> Ha]].
    - left; destruct (isMV r c a b f h Ha Hb) as (p' & E' & Hp); enough (p = p') by (subst; exact Hp).
      destruct Ha as (f' & -> & _), Hb as (h' & -> & _); destruct Hd as [-> |[-> Hr]]; [cbn [ndot] in E; congruence|].
      unfold matmul_scalar, item in E; destruct (Nat.eqb_spec c 1); [lia|]; rewrite andb_false_r in E; congruence.
    - destruct Ha as (f' & -> & Hf), Hb as (h' & -> & Hh); destruct Hd as [-> |[-> Hr]].
      + cbn [ndot nmatmul] in E; destruct (Nat.eqb_spec r 1); [subst r|discriminate]; injection E as <-; right; split; [reflexivity|].
        cbn; rewrite Hf, Hh by lia; reflexivity.
      + unfold matmul_scalar, item in E; destruct (Nat.eqb_spec r 1); [lia|]; cbn [Nat.eqb] in E; injection E as <-; left; eexists; split; [reflexivity|].
        intros i Hi; rewrite rsum_one; cbn beta; rewrite Hf, Hh by lia; reflexivity.
  Qed.

  Variable g : rule F.
  Variable m : smodel F.
  Variable d : derivatives F.
  Notation s := (second_solution F O (gy_of g) (gu_of g) d).
  Hypothesis W : proper g.
  Hypothesis Ds : describes g m.
  Hypothesis Hn : 1 < rn g.
  Variable X U : nat -> nat -> nat -> F.
  Variable C : nat -> F.
  Variable fX fU : mat F.
  Hypothesis EX : gxx d = squeeze F (M2 (rn g) (rs g * rs g) fX).
  Hypothesis EU : guu d = squeeze F (M2 (rn g) (rk g * rk g) fU).
  Hypothesis EC : gss d = V1 (rn g) C.
  Hypothesis HX : forall i a b, i < rn g -> a < rs g -> b < rs g -> fX i (a * rs g + b) = X i a b.
  Hypothesis HU : forall i a b, i < rn g -> a < rk g -> b < rk g -> fU i (a * rk g + b) = U i a b.

  Lemma rule_of_second : has_rule F g m s.
  Proof using W Ds. repeat split; try apply W; apply Ds. Qed.
  Lemma some_states : 0 < rs g /\ 0 < rk g.
  Proof using W. split; apply W. Qed.

  (** d + X vec V + U vec S, for the position [i] of the order. *)
  Definition terms (V : mat F) (i : nat) : F :=
    radd O (radd O (rsum (rs g) (fun a => rsum (rs g) (fun b => rmul O (X i a b) (V a b))))
                   (rsum (rk g) (fun l => rsum (rk g) (fun p => rmul O (U i l p) (m_sigma m l p))))) (C i).
  Definition quarter : F := rmul O half half.
  Lemma second_terms_ok dot idx d' X' U' v V p : dot = ndot F O \/ (dot = matmul_scalar F O /\ 1 < List.length idx) ->
    (forall i, In i idx -> i < rn g) ->
    isV (List.length idx) d' (fun i => rmul O half (C (nth i idx 0))) ->
    isS (List.length idx) (rs g * rs g) X' (fun i j => rmul O half (fX (nth i idx 0) j)) ->
    isS (List.length idx) (rk g * rk g) U' (fun i j => rmul O half (fU (nth i idx 0) j)) ->
    isM (rs g) (rs g) v V ->
    second_terms F O dot d' X' U' v (sigma_of F m) = Ok p -> isV (List.length idx) p (fun i => rmul O quarter (terms V (nth i idx 0))).
  Proof using FT W Hn HX HU Ds two_nz.
    intros Hd Hi HD HX' HU' HV; unfold second_terms; destruct some_states as [P1 P2].
    assert (Hsg : isM (rk g) (rk g) (sigma_of F m) (m_sigma m)) by (unfold sigma_of; rewrite (proj1 (proj2 Ds)); apply isM_refl).
    destruct (dot X' (flatten F v)) as [xx|] eqn:Exx; cbn [bind]; [|discriminate].
    pose proof (dot_made _ _ _ _ _ _ _ _ Hd HX' (isV_flatten _ _ _ P1 HV) Exx) as Hxx.
    destruct (dot U' (flatten F (sigma_of F m))) as [uu|] eqn:Euu; cbn [bind]; [|discriminate].
    pose proof (dot_made _ _ _ _ _ _ _ _ Hd HU' (isV_flatten _ _ _ P2 Hsg) Euu) as Huu.
    destruct (isV_addS _ _ _ _ _ HD Hxx) as (a & -> & Ha); cbn [bind].
    destruct (isV_addS _ _ _ _ _ Ha Huu) as (b & -> & Hb); cbn [bind].
    intros E; injection E as <-; destruct (isV_half _ _ _ Hb) as (f' & -> & Hf); exists f'; split; [reflexivity|].
    intros i Hi'; rewrite Hf by exact Hi'; pose proof (Hi _ (nth_In idx 0 Hi')) as Hr; set (r := nth i idx 0) in *.
    rewrite (flat_sum (rs g) (fun j => rmul O half (fX r j)) V) by lia.
    rewrite (flat_sum (rk g) (fun j => rmul O half (fU r j)) (m_sigma m)) by lia.
    assert (E1 : rsum (rs g) (fun a => rsum (rs g) (fun b => rmul O (rmul O half (fX r (a * rs g + b))) (V a b))) =
      rmul O half (rsum (rs g) (fun a => rsum (rs g) (fun b => rmul O (X r a b) (V a b))))).
    { rewrite <- (rsum_mul_l F O RT4); apply rsum_ext; intros x Hx; rewrite <- (rsum_mul_l F O RT4); apply rsum_ext; intros z Hz; rewrite HX by assumption; ring. }
    assert (E2 : rsum (rk g) (fun a => rsum (rk g) (fun b => rmul O (rmul O half (fU r (a * rk g + b))) (m_sigma m a b))) =
      rmul O half (rsum (rk g) (fun a => rsum (rk g) (fun b => rmul O (U r a b) (m_sigma m a b))))).
    { rewrite <- (rsum_mul_l F O RT4); apply rsum_ext; intros x Hx; rewrite <- (rsum_mul_l F O RT4); apply rsum_ext; intros z Hz; rewrite HU by assumption; ring. }
    rewrite E1, E2; unfold terms, quarter; ring.
  Qed.

  Lemma mean_ok a : no_unit_root F O g -> mean F O lyap lsolve (Ok tt) m s = Ok a ->
    exists V h, a = V1 (rn g) h /\ (forall i j, i < rs g -> j < rs g -> V i j =
        radd O (mmul (rs g) (on_states F g) (mmul (rs g) V (mtr F (on_states F g))) i j) (mmul (rk g) (B F g) (mmul (rk g) (m_sigma m) (mtr F (B F g))) i j)) /\
      forall e, second_order_mean F O half g X U C (m_sigma m) V e ->
      veq F (rn g) h (fun v => radd O (nth v (m_ss m) (r0 O)) (rmul O half (e v))).
  Proof using FT HL HS W Ds Hn EX EU EC HX HU two_nz.
    pose proof rule_of_second as HR; destruct some_states as [P1 P2]; intros NU; unfold no_unit_root in NU; change (SimSpec.Sum F O) with rsum in NU.
    assert (MX : isS (rn g) (rs g * rs g) (nscale_div F O (gxx d) (two F O)) (fun i j => rmul O half (fX i j))) by (rewrite EX; apply isS_half, isS_squeeze, Hn).
    assert (MU : isS (rn g) (rk g * rk g) (nscale_div F O (guu d) (two F O)) (fun i j => rmul O half (fU i j))) by (rewrite EU; apply isS_half, isS_squeeze, Hn).
    assert (MC : isV (rn g) (nscale_div F O (gss d) (two F O)) (fun i => rmul O half (C i))).
    { rewrite EC; apply isV_half, isV_refl. }
    cbn [mean second_solution].
    destruct (state_sigma F O lyap (Ok tt) m s) as [v|] eqn:Ev; cbn [bind]; [|discriminate].
    destruct (state_sigma_ok F O lyap HL g m s HR Hn v Ev) as (V & -> & HV); pose proof (isM_refl F (rs g) (rs g) V) as MV.
    destruct (kalman_ok F g m s HR Hn) as (A' & B' & -> & HA & _); cbn [bind fst snd].
    assert (SI : forall i, In i (m_state m) -> i < rn g) by (apply (state_in F g m s HR)).
    pose proof (state_len F g m s HR) as SL; pose proof (state_g F g m s HR) as SG.
    destruct (isV_take _ _ _ _ MC SI) as (dt & -> & Hdt); cbn [bind].
    destruct (isS_take _ _ _ _ _ MX SI) as (Xt & -> & HXt); cbn [bind].
    destruct (isS_take _ _ _ _ _ MU SI) as (Ut & -> & HUt); cbn [bind].
    destruct (second_terms F O (ndot F O) dt Xt Ut _ _) as [so|] eqn:Eso; cbn [bind]; [|discriminate].
    pose proof (second_terms_ok (ndot F O) (m_state m) dt Xt Ut _ V so (or_introl eq_refl) SI Hdt HXt HUt MV Eso) as Hso.
    rewrite SL in *; destruct (isM_elementwise F (rsub O) _ _ _ _ _ _ (isM_refl F (rs g) (rs g) (mid F O)) HA) as (IA & EIA & (IA' & -> & HIA)).
    unfold nsub; rewrite EIA; cbn [bind]; destruct Hso as (so' & -> & Hso); cbn [solve_vec].
    destruct (lsolve (rs g) IA' so') as [ex|] eqn:Eex; cbn [bind]; [|discriminate].
    pose proof (HS _ _ _ _ Eex) as Hex; change (SimSpec.Sum F O) with rsum in Hex.
    destruct (matmul_scalar F O (gy_of g) (V1 (rs g) ex)) as [gx|] eqn:Egx; cbn [bind]; [|discriminate].
    pose proof (dot_made _ _ _ _ _ _ _ _ (or_intror (conj eq_refl Hn)) (isS_squeeze (rn g) (rs g) (ry g) Hn) (isV_refl (rs g) ex) Egx) as Hgx'.
    assert (Hgx : isV (rn g) gx (fun i => rsum (rs g) (fun k => rmul O (ry g i k) (ex k)))) by (destruct Hgx' as [H|[H _]]; [exact H|lia]); clear Hgx'.
    assert (All : forall i, In i (seq 0 (rn g)) -> i < rn g) by (intros i Hi; apply in_seq in Hi; lia).
    destruct (second_terms F O (matmul_scalar F O) _ _ _ _ _) as [rest|] eqn:Er; cbn [bind]; [|discriminate].
    assert (Hr : isV (List.length (seq 0 (rn g))) rest (fun i => rmul O quarter (terms V (nth i (seq 0 (rn g)) 0)))).
    { assert (SQ : forall c a f, isS (rn g) c a f -> isS (List.length (seq 0 (rn g))) c a (fun i => f (nth i (seq 0 (rn g)) 0))).
      { rewrite seq_length; intros c a0 f [[N (f' & -> & Hf)]|[-> (f' & -> & Hf)]]; [left|right]; split; auto; exists f'; (split; [reflexivity|]).
        - intros i j Hi Hj; rewrite seq_nth by exact Hi; apply Hf; assumption.
        - intros i Hi; rewrite seq_nth by exact Hi; apply Hf; assumption. }
      apply (second_terms_ok (matmul_scalar F O) (seq 0 (rn g)) _ _ _ _ V rest) with (7 := Er); [right; split; [reflexivity|rewrite seq_length; exact Hn]|exact All| | | |exact MV].
      - rewrite seq_length; destruct MC as (f' & -> & Hf); exists f'; split; [reflexivity|]; intros i Hi; rewrite Hf, seq_nth by exact Hi; reflexivity.
      - exact (SQ _ _ _ MX).
      - exact (SQ _ _ _ MU). }
    rewrite seq_length in Hr.
    destruct (isV_add _ _ _ _ _ Hgx Hr) as (adj & -> & Hadj); cbn [bind].
    destruct (isV_take _ _ _ _ Hadj (dc_in F g m s HR)) as (adc & -> & Hadc); cbn [bind]; rewrite (dc_len F g m s HR) in Hadc.
    rewrite (proj1 Ds); destruct (isV_add _ _ _ _ _ (isV_refl (rn g) (get F O (m_ss m))) Hadc) as (q & -> & Hq); intros E; injection E as <-.
    destruct Hq as (q' & -> & Hq); exists V, q'; split; [reflexivity|]; split; [exact HV|]; intros e He.
    (* the states' expected values are twice what is solved for *)
    assert (Hhalf : forall i, i < rs g -> ex i = rmul O half (e (state_at g i))).
    { intros i Hi; assert (Z : rsub O (ex i) (rmul O half (e (state_at g i))) = r0 O).
      { revert i Hi; apply NU; intros i Hi; rewrite (rsum_ext F O (rs g) (fun a => rmul O (on_states F g i a) (rsub O (ex a) (rmul O half (e (state_at g a)))))
          (fun a => rsub O (rmul O (on_states F g i a) (ex a)) (rmul O half (rmul O (on_states F g i a) (e (state_at g a)))))) by (intros a _; ring).
        rewrite (rsum_sub F O RT4), (rsum_mul_l F O RT4).
        assert (H1 : rsum (rs g) (fun a => rmul O (on_states F g i a) (ex a)) = rsub O (ex i) (rmul O quarter (terms V (nth i (rstate g) 0)))).
        { specialize (Hex i Hi); rewrite (Hso i Hi), SG in Hex.
          rewrite (rsum_ext F O (rs g) _ (fun a => rsub O (rmul O (mid F O i a) (ex a)) (rmul O (on_states F g i a) (ex a)))) in Hex.
          2: { intros a Ha; rewrite HIA by assumption; unfold A; ring. }
          rewrite (rsum_sub F O RT4), (rsum_single F O RT4 (rs g) i) in Hex; [|exact Hi|intros a _ N; unfold mid; destruct (Nat.eqb_spec i a); [congruence|ring]].
          unfold mid in Hex; rewrite Nat.eqb_refl in Hex; rewrite <- Hex; ring. }
        pose proof (He (nth i (rstate g) 0) (state_pos F g W i Hi)) as H2; change (var_at g (nth i (rstate g) 0)) with (state_at g i) in H2.
        change (SimSpec.Sum F O) with rsum in H2; fold (terms V (nth i (rstate g) 0)) in H2.
        change (fun j => rmul O (ry g (nth i (rstate g) 0) j) (e (state_at g j))) with (fun a => rmul O (on_states F g i a) (e (state_at g a))) in H2.
        rewrite H1, H2; unfold quarter; ring. }
      transitivity (radd O (rsub O (ex i) (rmul O half (e (state_at g i)))) (rmul O half (e (state_at g i)))); [ring|]; rewrite Z; ring. }
    intros v Hv; rewrite Hq by exact Hv; unfold get; f_equal.
    destruct (dc_var F g m s HR v Hv) as (Evv & Lv); set (i := nth v (dc_order F m) 0) in *.
    pose proof (He i Lv) as H2; rewrite Evv in H2; change (SimSpec.Sum F O) with rsum in H2; fold (terms V i) in H2.
    rewrite seq_nth by exact Lv; cbn [plus]; rewrite H2.
    rewrite (rsum_ext F O (rs g) (fun k => rmul O (ry g i k) (ex k)) (fun k => rmul O half (rmul O (ry g i k) (e (state_at g k))))) by (intros k Hk'; rewrite Hhalf by exact Hk'; ring).
    rewrite (rsum_mul_l F O RT4); unfold quarter; ring.
  Qed.
End Mean.

(** ** Correlations *)

Section Corr.
  Variable F : Type.
  Variable O : rops F.
  Variable inv : F -> F.
  Hypothesis FT : is_field O inv.
  Variable le : F -> F -> Prop.
  Hypothesis OT : is_ordered O le.
  Let FT' : field_theory (r0 O) (r1 O) (radd O) (rmul O) (rsub O) (ropp O) (rdiv O) inv eq := FT.
  Add Field CorrField : FT'.
  Variable lyap : nat -> mat F -> mat F -> res (mat F).
  Variable sqrt : F -> F.

  Lemma corr_ok n verify m s c C : cov F O lyap verify m s = Ok c -> c = M2 n n C ->
    exists h, corr F O lyap sqrt verify m s = Ok (M2 n n h) /\
      forall v w, v < n -> w < n -> h v w = rdiv O (C v w) (rmul O (sqrt (C v v)) (sqrt (C w w))).
  Proof using.
    intros E ->; unfold corr; rewrite E; cbn [bind diag nmap nouter nsize]; rewrite Nat.min_id; cbn [elementwise rows cols]; rewrite !axis_same.
    eexists; split; [reflexivity|]; intros v w Hv Hw; unfold nouter; cbn [entry flat nsize]; rewrite !at_lt by assumption; reflexivity.
  Qed.
  Lemma std_ok n verify m s c C : cov F O lyap verify m s = Ok c -> c = M2 n n C ->
    var F O lyap verify m s = Ok (V1 n (fun v => C v v)) /\ std F O lyap sqrt verify m s = Ok (V1 n (fun v => sqrt (C v v))).
  Proof using.
    intros E ->; assert (V : var F O lyap verify m s = Ok (V1 n (fun v => C v v))) by (unfold var; rewrite E; cbn; rewrite Nat.min_id; reflexivity).
    split; [exact V|]; unfold std; rewrite V; reflexivity.
  Qed.
  Lemma autocorr_ok n verify m s c C p l : cov F O lyap verify m s = Ok c -> c = M2 n n C -> autocov F O lyap verify m s p = Ok l ->
    (forall i, i < List.length l -> exists f, nth i l (S0 (r0 O)) = M2 n n f) ->
    exists l', autocorr F O lyap sqrt verify m s p = Ok l' /\ List.length l' = List.length l /\
      forall i, i < List.length l -> exists f h, nth i l (S0 (r0 O)) = M2 n n f /\ nth i l' (S0 (r0 O)) = M2 n n h /\
        forall v w, v < n -> w < n -> h v w = rdiv O (f v w) (rmul O (sqrt (C v v)) (sqrt (C w w))).
  Proof using.
    intros E Ec Ea Hl; unfold autocorr; rewrite Ea, (proj2 (std_ok n verify m s c C E Ec)); cbn [bind]; clear Ea; revert Hl.
    induction l as [|x l IH]; intros Hl; cbn [mapM]; [eexists; repeat split; cbn; intros; lia|].
    destruct (Hl 0) as (f & Ef); [cbn; lia|]; cbn [nth] in Ef; subst x; cbn [nouter nsize elementwise rows cols]; rewrite !axis_same; cbn [bind].
    destruct IH as (l' & El & Ll & Hl'); [intros i Hi; exact (Hl (S i) ltac:(cbn; lia))|]; cbn [nouter nsize] in El; rewrite El; cbn [bind].
    eexists; split; [reflexivity|]; split; [cbn; lia|]; intros [|i] Hi; cbn [nth]; [|apply Hl'; cbn in Hi; lia].
    do 2 eexists; split; [reflexivity|]; split; [reflexivity|]; intros v w Hv Hw; unfold nouter; cbn [entry flat nsize]; rewrite !at_lt by assumption; reflexivity.
  Qed.

  (** Order. *)
  Lemma le_refl x : le x x.
  Proof using OT. destruct (o_total O le OT x x); assumption. Qed.
  Lemma le_sub x y : le x y <-> le (r0 O) (rsub O y x).
  Proof using OT FT.
    split; intros H.
    - apply (o_add O le OT _ _ (ropp O x)) in H; replace (radd O x (ropp O x)) with (r0 O) in H by ring; replace (rsub O y x) with (radd O y (ropp O x)) by ring; exact H.
    - apply (o_add O le OT _ _ x) in H; replace (radd O (r0 O) x) with x in H by ring; replace (radd O (rsub O y x) x) with y in H by ring; exact H.
  Qed.
  Lemma sq_nonneg x : le (r0 O) (rmul O x x).
  Proof using OT FT.
    destruct (o_total O le OT (r0 O) x) as [H|H]; [apply (o_mul O le OT); exact H|].
    replace (rmul O x x) with (rmul O (ropp O x) (ropp O x)) by ring; apply le_sub in H; replace (rsub O (r0 O) x) with (ropp O x) in H by ring; apply (o_mul O le OT); exact H.
  Qed.
  Lemma one_pos : le (r0 O) (r1 O).
  Proof using OT FT. replace (r1 O) with (rmul O (r1 O) (r1 O)) by ring; apply sq_nonneg. Qed.
  Lemma inv_pos x : le (r0 O) x -> x <> r0 O -> le (r0 O) (rdiv O (r1 O) x).
  Proof using OT FT.
    intros H N; replace (rdiv O (r1 O) x) with (rmul O x (rmul O (rdiv O (r1 O) x) (rdiv O (r1 O) x))) by (field; exact N).
    apply (o_mul O le OT); [exact H|apply sq_nonneg].
  Qed.
  Lemma nzd x y : rmul O x y = r0 O -> x <> r0 O -> y = r0 O.
  Proof using FT. intros E N; transitivity (rmul O (rdiv O (r1 O) x) (rmul O x y)); [field; exact N|]; rewrite E; ring. Qed.
  Lemma sq_le_one x : le (rmul O x x) (r1 O) -> le x (r1 O).
  Proof using OT FT.
    intros H; destruct (o_total O le OT x (r1 O)) as [H1|H1]; [exact H1|].
    (* 1 <= x, x x <= 1: x = x 1 <= x x <= 1 *)
    apply le_sub; assert (K : le (r0 O) (rmul O x (rsub O x (r1 O)))).
    { apply (o_mul O le OT); [apply (o_trans O le OT _ (r1 O)); [apply one_pos|exact H1]|exact (proj1 (le_sub _ _) H1)]. }
    apply le_sub in H; apply (o_trans O le OT _ _ (radd O (rmul O x (rsub O x (r1 O))) (rsub O (r1 O) (rmul O x x)))) in K.
    - replace (rsub O (r1 O) x) with (radd O (rmul O x (rsub O x (r1 O))) (rsub O (r1 O) (rmul O x x))) by ring; exact K.
    - apply le_sub; replace (rsub O (radd O (rmul O x (rsub O x (r1 O))) (rsub O (r1 O) (rmul O x x))) (rmul O x (rsub O x (r1 O)))) with (rsub O (r1 O) (rmul O x x)) by ring; exact H.
  Qed.

  (** Cauchy-Schwarz *)
  Lemma cauchy_schwarz (R : randoms F) x y : lawful F O R -> positive F O le R -> covariance R y y <> r0 O ->
    le (rmul O (covariance R x y) (covariance R x y)) (rmul O (covariance R x x) (covariance R y y)).
  Proof using OT FT.
    intros LR P N; set (a := covariance R y y); set (b := covariance R x y).
    pose proof (P (rv_plus R (rv_scale R a x) (rv_scale R (ropp O b) y))) as H.
    rewrite (cov_plus F O R LR), !(cov_scale F O R LR), !(cov_sym F O R LR _ (rv_plus R _ _)), !(cov_plus F O R LR), !(cov_scale F O R LR), (cov_sym F O R LR y x) in H.
    fold a b in H; set (c := covariance R x x) in *.
    replace (radd O (rmul O a (radd O (rmul O a c) (rmul O (ropp O b) b))) (rmul O (ropp O b) (radd O (rmul O a b) (rmul O (ropp O b) a))))
      with (rmul O a (rsub O (rmul O c a) (rmul O b b))) in H by ring.
    apply le_sub; apply (o_mul O le OT _ _ (inv_pos a (P y) N)) in H.
    replace (rmul O (rdiv O (r1 O) a) (rmul O a (rsub O (rmul O c a) (rmul O b b)))) with (rsub O (rmul O c a) (rmul O b b)) in H by (field; exact N); exact H.
  Qed.
  Lemma corr_bounds (R : randoms F) x y : lawful F O R -> positive F O le R -> (forall z, z = x \/ z = y -> rmul O (sqrt (covariance R z z)) (sqrt (covariance R z z)) = covariance R z z) ->
    covariance R x x <> r0 O -> covariance R y y <> r0 O ->
    let r := rdiv O (covariance R x y) (rmul O (sqrt (covariance R x x)) (sqrt (covariance R y y))) in
    le (ropp O (r1 O)) r /\ le r (r1 O) /\ rdiv O (covariance R x x) (rmul O (sqrt (covariance R x x)) (sqrt (covariance R x x))) = r1 O.
  Proof using OT FT.
    intros LR P Sq Nx Ny r; pose proof (Sq x (or_introl eq_refl)) as Sx; pose proof (Sq y (or_intror eq_refl)) as Sy.
    assert (Rr : le (rmul O r r) (r1 O)).
    { pose proof (cauchy_schwarz R x y LR P Ny) as H; unfold r; set (a := sqrt (covariance R x x)) in *; set (b := sqrt (covariance R y y)) in *; set (c := covariance R x y) in *.
      rewrite <- Sx, <- Sy in H.
      assert (Na : a <> r0 O) by (intros E; apply Nx; rewrite <- Sx, E; ring); assert (Nb : b <> r0 O) by (intros E; apply Ny; rewrite <- Sy, E; ring).
      apply le_sub in H; apply le_sub.
      assert (Q : le (r0 O) (rdiv O (r1 O) (rmul O (rmul O a a) (rmul O b b)))).
      { apply inv_pos; [apply (o_mul O le OT); apply sq_nonneg|]; intros E; apply Nb, (nzd b), Nb; apply (nzd (rmul O a a)); [exact E|]; intros E2; apply Na, (nzd a); assumption. }
      apply (o_mul O le OT _ _ Q) in H.
      replace (rmul O (rdiv O (r1 O) (rmul O (rmul O a a) (rmul O b b))) (rsub O (rmul O (rmul O a a) (rmul O b b)) (rmul O c c)))
        with (rsub O (r1 O) (rmul O (rdiv O c (rmul O a b)) (rdiv O c (rmul O a b)))) in H by (field; auto); exact H. }
    split; [|split].
    - assert (Rn : le (rmul O (ropp O r) (ropp O r)) (r1 O)) by (replace (rmul O (ropp O r) (ropp O r)) with (rmul O r r) by ring; exact Rr).
      apply sq_le_one in Rn; apply le_sub; apply le_sub in Rn; replace (rsub O r (ropp O (r1 O))) with (rsub O (r1 O) (ropp O r)) by ring; exact Rn.
    - apply sq_le_one, Rr.
    - rewrite Sx; field; exact Nx.
  Qed.
End Corr.
