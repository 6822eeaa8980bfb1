(** Simulations and impulse responses: C35, C36, C37, C38, C39, C62.

    A rule [g] is the decision rule of a model: matrices and orders (SimSpec.v).  [describes
    g m] says that the model has that rule's numbers of variables and shocks and its orders;
    [First (gy_of g) (gu_of g)] is its first-order solution.  [chol] is any function that
    stands for the Cholesky factorisation, [R] what it returns on the model's covariance
    matrix.  [dev m p t v] is the deviation of variable [v] in period [t] of the simulated
    path [p]. *)
From Verif Require Import Base Semantics Nd SimSpec NdProofs Sim SimProofs SimProofs2 SimProofs3 NdInst.
From Coq Require Import Ring Field Permutation QArith Qcanon.
Local Open Scope nat_scope.

Section Sims.
  Variable F : Type.
  Variable O : rops F.
  Variable chol : nat -> (nat -> nat -> F) -> res (nat -> nat -> F).
  Notation Sum := (SimSpec.Sum F O).
  Notation value := (SimSpec.value F O).
  Notation dev := (SimProofs3.dev F O).
  Definition sim1 (g : rule F) (m : smodel F) (T : nat) (u : nat -> nat -> F) (init : option (nd F)) : res (list (list F)) :=
    simulate F O chol m (First (gy_of g) (gu_of g)) (Some (M2 T (rk g) u)) T (fun _ _ => r0 O) init.
  Definition sim2 (g : rule F) (d : derivatives F) (m : smodel F) (T : nat) (u : nat -> nat -> F) (init : option (nd F)) : res (list (list F)) :=
    simulate F O chol m (second_solution F O (gy_of g) (gu_of g) d) (Some (M2 T (rk g) u)) T (fun _ _ => r0 O) init.
  (** A first-order solved model whose simulation is possible. *)
  Definition solved (g : rule F) (m : smodel F) (R : nat -> nat -> F) : Prop :=
    proper g /\ describes g m /\ (1 < rn g \/ rk g = 1) /\ chol (rk g) (m_sigma m) = Ok R.

  Section Ring.
    Hypothesis RT : is_ring O.
    Let RT' : ring_theory (r0 O) (r1 O) (radd O) (rmul O) (rsub O) (ropp O) eq := RT.
    Add Ring Fring4 : RT'.

    Lemma init_some (m : smodel F) i0 : init_dev F O m (Some (V1 (List.length (m_ss m)) i0)) (fun v => rsub O (i0 v) (nth v (m_ss m) (r0 O))).
    Proof. right; exists i0; split; [reflexivity|]; reflexivity. Qed.
    Lemma init_none (m : smodel F) : init_dev F O m None (fun _ => r0 O).
    Proof. left; split; [reflexivity|]; reflexivity. Qed.

    Lemma sim1_spec g m R T u init x0 p : solved g m R -> 0 < T -> init_dev F O m init x0 -> sim1 g m T u init = Ok p ->
      table F T (rn g) p /\ starts F g x0 (dev m p) /\ obeys F O g T (mixed F O (rk g) R u) (dev m p).
    Proof using RT.
      intros (W & D & Hw & Hc) HT Hi E.
      destruct (simulate_first_model F O chol RT g m R T u T (fun _ _ => r0 O) init x0 W D Hw Hc HT Hi) as (p' & E' & Tb & St & Ob).
      unfold sim1 in E; rewrite E in E'; injection E' as <-; auto.
    Qed.
    Lemma mixed_zero k R u t l : (forall j, j < k -> u t j = r0 O) -> mixed F O k R u t l = r0 O.
    Proof using RT.
      intros H; unfold mixed; change (SimSpec.Sum F O) with (rsum F O); apply rsum_all_zero; [exact RT|].
      intros j Hj; rewrite H by exact Hj; ring.
    Qed.
    Lemma mixed_ext k R u1 u2 t l : (forall j, j < k -> u1 t j = u2 t j) -> mixed F O k R u1 t l = mixed F O k R u2 t l.
    Proof using.
      intros H; unfold mixed; change (SimSpec.Sum F O) with (rsum F O); apply rsum_ext.
      intros j Hj; rewrite H by exact Hj; reflexivity.
    Qed.
    Lemma mixed_comb k R u1 u2 a b t l : mixed F O k R (fun t l => radd O (rmul O a (u1 t l)) (rmul O b (u2 t l))) t l =
      radd O (rmul O a (mixed F O k R u1 t l)) (rmul O b (mixed F O k R u2 t l)).
    Proof using RT.
      unfold mixed; change (SimSpec.Sum F O) with (rsum F O).
      rewrite <- !rsum_mul_l, <- rsum_add by exact RT; apply rsum_ext; intros j _; ring.
    Qed.

    (** C35, linear: the simulation from a combination of initial deviations and shocks
        is the same combination of the simulations. *)
    Theorem C35_linear g m R T u1 u2 i1 i2 p1 p2 a b :
      let n := List.length (m_ss m) in
      let ss v := nth v (m_ss m) (r0 O) in
      solved g m R -> 0 < T ->
      sim1 g m T u1 (Some (V1 n i1)) = Ok p1 -> sim1 g m T u2 (Some (V1 n i2)) = Ok p2 ->
      exists p,
        sim1 g m T (fun t l => radd O (rmul O a (u1 t l)) (rmul O b (u2 t l)))
          (Some (V1 n (fun v => radd O (ss v) (radd O (rmul O a (rsub O (i1 v) (ss v))) (rmul O b (rsub O (i2 v) (ss v))))))) = Ok p /\
        forall t v, t < T -> v < n -> dev m p t v = radd O (rmul O a (dev m p1 t v)) (rmul O b (dev m p2 t v)).
    Proof using RT.
      intros n ss S HT E1 E2; pose proof S as (W & D & Hw & Hc); pose proof D as (Ls & _).
      destruct (sim1_spec _ _ _ _ _ _ _ _ S HT (init_some m i1) E1) as (_ & St1 & Ob1).
      destruct (sim1_spec _ _ _ _ _ _ _ _ S HT (init_some m i2) E2) as (_ & St2 & Ob2).
      match goal with |- exists p, sim1 g m T ?u (Some (V1 n ?i)) = _ /\ _ =>
        destruct (simulate_first_model F O chol RT g m R T u T (fun _ _ => r0 O) _ _ W D Hw Hc HT (init_some m i)) as (p & E & _ & St & Ob) end.
      exists p; split; [exact E|]; intros t v Ht Hv; unfold n in Hv; rewrite Ls in Hv.
      apply (obeys_until F O RT g W T _ _ _ (fun t v => radd O (rmul O a (dev m p1 t v)) (rmul O b (dev m p2 t v))) t Ob
               (obeys_comb F O RT g T _ _ _ _ a b Ob1 Ob2)); [|exact Ht| |exact Hv].
      - intros w Hw'; rewrite (St w Hw'), (St1 w Hw'), (St2 w Hw'); fold ss; unfold ss; ring.
      - intros s l _ _; apply mixed_comb.
    Qed.
    (** C35, rest: without shocks and from the steady state nothing moves. *)
    Theorem C35_rest g m R T u p : solved g m R -> 0 < T -> (forall t l, l < rk g -> u t l = r0 O) ->
      sim1 g m T u None = Ok p ->
      forall t v, t < T -> v < List.length (m_ss m) -> value p t v = nth v (m_ss m) (r0 O).
    Proof using RT.
      intros S HT Hu E t v Ht Hv; pose proof S as (W & (Ls & _) & _).
      destruct (sim1_spec _ _ _ _ _ _ _ _ S HT (init_none m) E) as (_ & St & Ob).
      assert (Z : dev m p t v = r0 O).
      { apply (obeys_until F O RT g W T _ _ _ (fun _ _ => r0 O) t Ob (obeys_rest F O RT g T)); [exact St|exact Ht| |lia].
        intros s l _ _; apply mixed_zero, Hu. }
      unfold SimProofs3.dev in Z; replace (value p t v) with (radd O (rsub O (value p t v) (nth v (m_ss m) (r0 O))) (nth v (m_ss m) (r0 O))) by ring.
      rewrite Z; ring.
    Qed.
    (** The hypothesis that the simulations succeed is met by every solved model. *)
    Theorem C35_runs g m R T u init x0 : solved g m R -> 0 < T -> init_dev F O m init x0 ->
      exists p, sim1 g m T u init = Ok p /\ table F T (rn g) p.
    Proof using RT.
      intros (W & D & Hw & Hc) HT Hi.
      destruct (simulate_first_model F O chol RT g m R T u T (fun _ _ => r0 O) init x0 W D Hw Hc HT Hi) as (p' & E' & Tb & _); eauto.
    Qed.

    (** C36, causal: the value in period t depends on the initial point and the shocks of
        the periods before t. *)
    Theorem C36_causal_first g m R T u1 u2 init x0 p1 p2 t : solved g m R -> init_dev F O m init x0 ->
      sim1 g m T u1 init = Ok p1 -> sim1 g m T u2 init = Ok p2 -> t < T ->
      (forall s l, s < t -> l < rk g -> u1 s l = u2 s l) ->
      forall v, v < rn g -> dev m p1 t v = dev m p2 t v.
    Proof using RT.
      intros S Hi E1 E2 Ht Hu v Hv; pose proof S as (W & _).
      assert (HT : 0 < T) by lia.
      destruct (sim1_spec _ _ _ _ _ _ _ _ S HT Hi E1) as (_ & St1 & Ob1).
      destruct (sim1_spec _ _ _ _ _ _ _ _ S HT Hi E2) as (_ & St2 & Ob2).
      apply (obeys_until F O RT g W T _ _ _ _ t Ob1 Ob2); [|exact Ht| |exact Hv].
      - intros w Hw; rewrite (St1 w Hw), (St2 w Hw); reflexivity.
      - intros s l Hs Hl; apply mixed_ext; intros j Hj; apply Hu; assumption.
    Qed.
    (** ... and the shocks of the last period are never used. *)
    Corollary C36_last_unused g m R T u1 u2 init x0 p1 p2 : solved g m R -> init_dev F O m init x0 ->
      sim1 g m T u1 init = Ok p1 -> sim1 g m T u2 init = Ok p2 ->
      (forall s l, S s < T -> l < rk g -> u1 s l = u2 s l) ->
      forall t v, t < T -> v < rn g -> dev m p1 t v = dev m p2 t v.
    Proof using RT.
      intros S Hi E1 E2 Hu t v Ht Hv; apply (C36_causal_first g m R T u1 u2 init x0); try assumption.
      intros s l Hs Hl; apply Hu; [lia|exact Hl].
    Qed.
    (** Of the other shocks exactly those with an impact influence the next period. *)
    Theorem C36_influence_partial g m R T u1 u2 init x0 p1 p2 s : solved g m R -> init_dev F O m init x0 ->
      sim1 g m T u1 init = Ok p1 -> sim1 g m T u2 init = Ok p2 -> S s < T ->
      (forall r l, r < s -> l < rk g -> u1 r l = u2 r l) ->
      (forall v, v < rn g -> dev m p1 (S s) v = dev m p2 (S s) v) <->
      (forall i, i < rn g ->
         Sum (rk g) (fun l => rmul O (ru g i l) (Sum (rk g) (fun j => rmul O (u1 s j) (R j l)))) =
         Sum (rk g) (fun l => rmul O (ru g i l) (Sum (rk g) (fun j => rmul O (u2 s j) (R j l))))).
    Proof using RT.
      intros S Hi E1 E2 Ht Hu; pose proof S as (W & _).
      assert (HT : 0 < T) by lia.
      destruct (sim1_spec _ _ _ _ _ _ _ _ S HT Hi E1) as (_ & St1 & Ob1).
      destruct (sim1_spec _ _ _ _ _ _ _ _ S HT Hi E2) as (_ & St2 & Ob2).
      assert (Now : forall v, v < rn g -> dev m p1 s v = dev m p2 s v).
      { apply (obeys_until F O RT g W T _ _ _ _ s Ob1 Ob2); [|lia|].
        - intros w Hw; rewrite (St1 w Hw), (St2 w Hw); reflexivity.
        - intros r l Hs Hl; apply mixed_ext; intros j Hj; apply Hu; assumption. }
      assert (Step : forall i, i < rn g ->
        Sum (rs g) (fun j => rmul O (ry g i j) (dev m p1 s (state_at g j))) = Sum (rs g) (fun j => rmul O (ry g i j) (dev m p2 s (state_at g j)))).
      { intros i Hi'; change (SimSpec.Sum F O) with (rsum F O); apply rsum_ext; intros j Hj; rewrite Now; [reflexivity|].
        apply state_lt; assumption. }
      split.
      - intros H i Hi'; pose proof (H _ (var_lt F g W i Hi')) as E; rewrite Ob1, Ob2, Step in E by assumption.
        unfold mixed in E; match goal with |- ?a = ?b => replace a with (rsub O (radd O (Sum (rs g) (fun j => rmul O (ry g i j) (dev m p2 s (state_at g j)))) a) (Sum (rs g) (fun j => rmul O (ry g i j) (dev m p2 s (state_at g j))))) by ring end.
        rewrite E; ring.
      - intros H v Hv; destruct (var_onto F g W v Hv) as (i & Hi' & <-); rewrite Ob1, Ob2, Step by assumption.
        f_equal; exact (H i Hi').
    Qed.

    (** C37.  The shocks that an impulse response moves. *)
    Definition chosen (names : list string) (e : option key) (j : nat) : bool :=
      match e with
      | None => j =? 0
      | Some (One x) => String.eqb (nth j names ""%string) x
      | Some (Many xs) => existsb (String.eqb (nth j names ""%string)) xs
      end.
    Definition known (names : list string) (e : option key) : Prop :=
      match e with None => True | Some (One x) => In x names | Some (Many xs) => forall x, In x xs -> In x names end.

    Lemma impulse_index names e : NoDup names -> 0 < List.length names -> known names e ->
      exists idx, match e with None => Ok [0] | Some k => get_loc names k end = Ok idx /\
        existsb (fun i => List.length names <=? i) idx = false /\
        forall j, j < List.length names -> existsb (Nat.eqb j) idx = chosen names e j.
    Proof using.
      intros D L H.
      assert (G : forall idx (P : nat -> Prop), (forall i, In i idx <-> P i) -> (forall i, P i -> i < List.length names) ->
        existsb (fun i => List.length names <=? i) idx = false /\ forall j, existsb (Nat.eqb j) idx = true <-> P j).
      { intros idx P HP Hb; split.
        - apply not_true_is_false; intros E; apply existsb_exists in E; destruct E as (i & Hi & Hl).
          apply HP, Hb in Hi; apply Nat.leb_le in Hl; lia.
        - intros j; rewrite existsb_exists; split.
          + intros (i & Hi & E); apply Nat.eqb_eq in E; subst i; apply HP, Hi.
          + intros Hj; exists j; split; [apply HP, Hj|apply Nat.eqb_refl]. }
      assert (B : forall x y : bool, (x = true <-> y = true) -> x = y) by (intros [] [] []; auto; symmetry; auto).
      destruct e as [[x|xs]|]; cbn [known get_loc chosen] in *.
      - destruct (loc1_ok names x D H) as (i & E & Hi); rewrite E; cbn [bind]; exists [i]; split; [reflexivity|].
        destruct (G [i] (fun j => nth_error names j = Some x)) as (G1 & G2).
        + intros j; split; [intros [<-|[]]; exact Hi|]; intros Hj; left.
          apply (proj1 (NoDup_nth_error names) D); [apply nth_error_Some; congruence|congruence].
        + intros j Hj; apply nth_error_Some; congruence.
        + split; [exact G1|]; intros j Hj; apply B; rewrite G2, String.eqb_eq.
          rewrite (nth_error_nth' names ""%string Hj); split; congruence.
      - destruct (loc_many names xs D H) as (idx & E & Hi); rewrite E; exists idx; split; [reflexivity|].
        destruct (G idx _ Hi) as (G1 & G2); [intros j (x & _ & Hj); apply nth_error_Some; congruence|].
        split; [exact G1|]; intros j Hj; apply B; rewrite G2, existsb_exists, (nth_error_nth' names ""%string Hj); split.
        + intros (x & Hx & Ex); exists x; split; [exact Hx|]; apply String.eqb_eq; congruence.
        + intros (x & Hx & Ex); apply String.eqb_eq in Ex; exists x; split; [exact Hx|congruence].
      - exists [0]; split; [reflexivity|]; split.
        + cbn [existsb]; rewrite orb_false_r; apply Nat.leb_gt; exact L.
        + intros j _; cbn [existsb]; apply orb_false_r.
    Qed.

    Lemma power_scale n P a b : forall t v, power F O n P t (fun w => rmul O a (b w)) v = rmul O a (power F O n P t b v).
    Proof using RT.
      induction t as [|t IH]; intros v; [reflexivity|]; cbn [power]; change (SimSpec.Sum F O) with (rsum F O).
      rewrite <- rsum_mul_l by exact RT; apply rsum_ext; intros w _; rewrite IH; ring.
    Qed.
    Lemma power_ext n P b b' : (forall w, w < n -> b w = b' w) -> forall t v, v < n -> power F O n P t b v = power F O n P t b' v.
    Proof using.
      intros H; induction t as [|t IH]; intros v Hv; [exact (H v Hv)|]; cbn [power]; change (SimSpec.Sum F O) with (rsum F O).
      apply rsum_ext; intros w Hw; rewrite IH by exact Hw; reflexivity.
    Qed.

    (** C37: for every transition matrix [P] of the rule and the impact [b] of one unit of
        the chosen shocks, the response is zero in the first period and the t-th power
        of [P] applied to [b], times the size, t periods after the impact. *)
    Theorem C37_powers g m R P b e periods size :
      solved g m R -> transition F O g P -> NoDup (m_shocks m) -> known (m_shocks m) e -> 0 < periods ->
      (forall i, i < rn g -> b (var_at g i) =
         Sum (rk g) (fun j => if chosen (m_shocks m) e j then Sum (rk g) (fun l => rmul O (R j l) (ru g i l)) else r0 O)) ->
      exists p, impulse_response F O chol m (First (gy_of g) (gu_of g)) e periods size = Ok p /\
        table F periods (rn g) p /\
        (forall v, v < rn g -> value p 0 v = r0 O) /\
        forall t v, S t < periods -> v < rn g -> value p (S t) v = rmul O size (power F O (rn g) P t b v).
    Proof using RT.
      intros S HP D K HT Hb; pose proof S as (W & Dm & Hw & Hc); pose proof Dm as (Ls & Lk & _).
      assert (Hk : 0 < rk g) by (destruct W as (_ & _ & _ & _ & _ & _ & H); exact H).
      destruct (impulse_index (m_shocks m) e D ltac:(lia) K) as (idx & Ei & Eb & Ex).
      unfold impulse_response; rewrite Ei; cbn [bind]; rewrite Eb, Lk, orb_false_r.
      destruct (Nat.eqb_spec periods 0); [lia|].
      set (u := fun t j => _).
      destruct (simulate_first_model F O chol RT g m R periods u 200 (fun _ _ => r0 O) None _ W Dm Hw Hc HT (init_none m)) as (p & E & (Tl & Tw) & St & Ob).
      rewrite E; cbn [bind]; eexists; split; [reflexivity|].
      set (p' := @map (list F) (list F) _ p); unfold row in *.
      assert (Val : forall t v, t < periods -> v < rn g -> value p' t v = dev m p t v).
      { intros t v Ht Hv; unfold p', SimSpec.value, SimProofs3.dev.
        set (h := fun r : list F => map (fun q => rsub O (fst q) (snd q)) (combine r (m_ss m))).
        rewrite (nth_indep _ [] (h [])) by (rewrite map_length, Tl; exact Ht); rewrite (map_nth h); unfold h.
        assert (Lr : List.length (nth t p []) = rn g) by (apply Tw, nth_In; lia).
        rewrite (nth_indep _ (r0 O) (rsub O (fst (r0 O, r0 O)) (snd (r0 O, r0 O)))) by (rewrite map_length, combine_length; lia).
        rewrite (map_nth (fun q : F * F => rsub O (fst q) (snd q))), combine_nth by congruence; reflexivity. }
      split; [|split].
      - split; [unfold p'; rewrite map_length; exact Tl|]; intros r Hr; apply in_map_iff in Hr; destruct Hr as (r' & <- & Hr').
        rewrite map_length, combine_length, (Tw _ Hr'); lia.
      - intros v Hv; rewrite Val by assumption; apply St; exact Hv.
      - intros t v Ht Hv; rewrite Val by assumption.
        rewrite (obeys_powers F O RT g W periods _ _ P HP Ob); [|intros s l Hs Hl; apply mixed_zero; intros j Hj; unfold u; destruct (Nat.eqb_spec s 0); [lia|reflexivity]|exact Ht|exact Hv].
        rewrite <- power_scale; apply power_ext; [|exact Hv]; intros w Hw'.
        destruct (var_onto F g W w Hw') as (i & Hi & <-).
        rewrite Ob by (try exact Hi; lia); rewrite (Hb i Hi).
        unfold mixed, u; change (SimSpec.Sum F O) with (rsum F O); cbn [Nat.eqb andb].
        rewrite rsum_all_zero by (try exact RT; intros j Hj; rewrite (St _ (state_lt F g W j Hj)); ring).
        transitivity (rsum F O (rk g) (fun l => rsum F O (rk g) (fun j => rmul O size (if chosen (m_shocks m) e j then rmul O (R j l) (ru g i l) else r0 O)))).
        { match goal with |- radd O (r0 O) ?a = _ => transitivity a; [ring|] end.
          apply rsum_ext; intros l Hl; rewrite <- rsum_mul_l by exact RT; apply rsum_ext; intros j Hj.
          rewrite Ex by lia; destruct (chosen (m_shocks m) e j); ring. }
        rewrite rsum_swap by exact RT; rewrite <- rsum_mul_l by exact RT; apply rsum_ext; intros j Hj.
        rewrite rsum_mul_l by exact RT; f_equal; destruct (chosen (m_shocks m) e j); [reflexivity|apply rsum_zero; exact RT].
    Qed.
    (** Every proper rule has a transition matrix. *)
    Theorem C37_transition_exists g : proper g -> exists P, transition F O g P.
    Proof using RT. intros W; eexists; exact (trans_matrix_ok F O RT g W). Qed.

    (** C38.  [draw w] is the array of draws in the event [w], and [E] any additive and
        homogeneous functional on random numbers (an expectation). *)
    Theorem C38_covariance (Omega : Type) (E : (Omega -> F) -> F) (draw : Omega -> nat -> nat -> F) (m : smodel F) periods R :
      let k := List.length (m_shocks m) in
      (forall f h, (forall w, f w = h w) -> E f = E h) ->
      (forall f h, E (fun w => radd O (f w) (h w)) = radd O (E f) (E h)) ->
      (forall a f, E (fun w => rmul O a (f w)) = rmul O a (E f)) ->
      (forall t j s l, t < periods -> s < periods -> j < k -> l < k ->
         E (fun w => rmul O (draw w t j) (draw w s l)) = if (t =? s) && (j =? l) then r1 O else r0 O) ->
      chol k (m_sigma m) = Ok R ->
      (forall a b, a < k -> b < k -> Sum k (fun j => rmul O (R j a) (R j b)) = m_sigma m a b) ->
      exists sh, (forall w, gen_shocks F O chol m None periods (draw w) = Ok (M2 periods k (sh w))) /\
      forall t a s b, t < periods -> s < periods -> a < k -> b < k ->
        E (fun w => rmul O (sh w t a) (sh w s b)) = if t =? s then m_sigma m a b else r0 O.
    Proof using RT.
      intros k Eext Eadd Ehom Eun Hc HR.
      exists (fun w t a => Sum k (fun j => rmul O (draw w t j) (R j a))); split.
      - intros w; unfold gen_shocks; fold k; rewrite Hc; cbn [bind nmatmul]; rewrite Nat.eqb_refl; reflexivity.
      - intros t a s b Ht Hs Ha Hb; change (SimSpec.Sum F O) with (rsum F O) in *.
        assert (Esum : forall n (f : nat -> Omega -> F), E (fun w => rsum F O n (fun j => f j w)) = rsum F O n (fun j => E (f j))).
        { induction n as [|n IH]; intros f; cbn [rsum].
          - rewrite (Eext _ (fun w => rmul O (r0 O) (r0 O))) by (intros; ring); rewrite Ehom; ring.
          - rewrite Eadd, IH; reflexivity. }
        rewrite (Eext _ (fun w => rsum F O k (fun j => rsum F O k (fun l => rmul O (rmul O (R j a) (R l b)) (rmul O (draw w t j) (draw w s l)))))).
        2:{ intros w; rewrite <- rsum_mul_r by exact RT; apply rsum_ext; intros j _; rewrite <- rsum_mul_l by exact RT; apply rsum_ext; intros l _; ring. }
        rewrite Esum.
        transitivity (rsum F O k (fun j => rsum F O k (fun l => rmul O (rmul O (R j a) (R l b)) (if (t =? s) && (j =? l) then r1 O else r0 O)))).
        { apply rsum_ext; intros j Hj; rewrite (Esum k (fun l w => rmul O (rmul O (R j a) (R l b)) (rmul O (draw w t j) (draw w s l)))).
          apply rsum_ext; intros l Hl; rewrite Ehom, Eun by assumption; reflexivity. }
        destruct (t =? s); cbn [andb].
        + rewrite <- (HR a b Ha Hb); apply rsum_ext; intros j Hj; rewrite (rsum_single F O RT k j); [rewrite Nat.eqb_refl; ring|exact Hj|].
          intros i _ N; destruct (Nat.eqb_spec j i); [congruence|ring].
        + apply rsum_all_zero; [exact RT|]; intros j _; apply rsum_all_zero; [exact RT|]; intros l _; ring.
    Qed.
    (** These shocks are what a simulation without given shocks uses. *)
    Theorem C38_used m s periods noise init :
      simulate F O chol m s None periods noise init =
      simulate F O chol m s (Some (M2 periods (List.length (m_shocks m)) noise)) periods noise init.
    Proof using. reflexivity. Qed.
  End Ring.

  Section Field.
    Variable inv : F -> F.
    Variable FT : is_field O inv.
    Hypothesis Two : twice_one O <> r0 O.
    Let FT' : field_theory (r0 O) (r1 O) (radd O) (rmul O) (rsub O) (ropp O) (rdiv O) inv eq := FT.
    Add Field Ffield4 : FT'.
    Let RT : is_ring O := F_R FT'.

    Definition half : F := rdiv O (r1 O) (twice_one O).
    (** A second-order solved model whose simulation is possible. *)
    Definition solved2 (g : rule F) (m : smodel F) (R : nat -> nat -> F) X U Y C d : Prop :=
      proper g /\ describes g m /\ (rn g = 1 \/ (1 < rs g /\ 1 < rk g)) /\ chol (rk g) (m_sigma m) = Ok R /\
      second_derivatives F g X U Y C d.

    (** C39, what the simulation does: the quadratic terms in states, in shocks and in
        the scale of uncertainty have coefficient one quarter, half of what the Taylor
        expansion has; the cross terms have their coefficient. *)
    Theorem C39_quarter_partial g m R X U Y C d T u init x0 : solved2 g m R X U Y C d -> 0 < T -> init_dev F O m init x0 ->
      exists p, sim2 g d m T u init = Ok p /\ table F T (rn g) p /\ starts F g x0 (dev m p) /\
        obeys2 F O (rmul O half half) g X U Y C T (mixed F O (rk g) R u) (dev m p).
    Proof using FT Two.
      intros (W & D & Hw & Hc & Hd) HT Hi.
      destruct (simulate_second_model F O chol inv FT Two g m X U Y C d R T u T (fun _ _ => r0 O) init x0 W D Hd Hw Hc HT Hi) as (p & E & Tb & St & Ob).
      exists p; split; [exact E|]; split; [exact Tb|]; split; [exact St|].
      replace (rmul O half half) with (quarter F O); [exact Ob|].
      unfold quarter, half, Sim.two; change (radd O (r1 O) (r1 O)) with (twice_one O); field; exact Two.
    Qed.
    Lemma cancel a b h k q : radd O (radd O a (rmul O h q)) b = radd O (radd O a (rmul O k q)) b -> rmul O h q = rmul O k q.
    Proof using FT.
      intros H; transitivity (rsub O (rsub O (radd O (radd O a (rmul O h q)) b) b) a); [ring|rewrite H; ring].
    Qed.
    (** ... so it is the Taylor expansion exactly when those terms vanish on the path. *)
    Theorem C39_taylor_iff g m R X U Y C d T u init x0 p : solved2 g m R X U Y C d -> 0 < T -> init_dev F O m init x0 ->
      sim2 g d m T u init = Ok p ->
      obeys2 F O half g X U Y C T (mixed F O (rk g) R u) (dev m p) <->
      (forall t i, S t < T -> i < rn g -> quadratic F O g X U C (mixed F O (rk g) R u) (dev m p) t i = r0 O).
    Proof using FT Two.
      intros S HT Hi E.
      destruct (C39_quarter_partial g m R X U Y C d T u init x0 S HT Hi) as (p' & E' & _ & _ & Ob); rewrite E in E'; injection E' as <-.
      split.
      - intros H t i Ht Hi'; pose proof (H t i Ht Hi') as H1; rewrite (Ob t i Ht Hi') in H1.
        set (q := quadratic F O g X U C (mixed F O (rk g) R u) (dev m p) t i) in *.
        apply cancel in H1; rename H1 into Hq.
        unfold half in Hq; transitivity (rmul O (rmul O (twice_one O) (twice_one O)) (rsub O (rmul O (rdiv O (r1 O) (twice_one O)) q) (rmul O (rmul O (rdiv O (r1 O) (twice_one O)) (rdiv O (r1 O) (twice_one O))) q))).
        + unfold twice_one in *; field; exact Two.
        + rewrite Hq; ring.
      - intros H t i Ht Hi'; rewrite (Ob t i Ht Hi'), (H t i Ht Hi'); ring.
    Qed.
    (** C36, causal, second order. *)
    Theorem C36_causal_second g m R X U Y C d T u1 u2 init x0 p1 p2 t : solved2 g m R X U Y C d -> init_dev F O m init x0 ->
      sim2 g d m T u1 init = Ok p1 -> sim2 g d m T u2 init = Ok p2 -> t < T ->
      (forall s l, s < t -> l < rk g -> u1 s l = u2 s l) ->
      forall v, v < rn g -> dev m p1 t v = dev m p2 t v.
    Proof using FT Two.
      intros S Hi E1 E2 Ht Hu v Hv; pose proof S as (W & _).
      destruct (C39_quarter_partial g m R X U Y C d T u1 init x0 S ltac:(lia) Hi) as (q1 & F1 & _ & St1 & Ob1); rewrite E1 in F1; injection F1 as <-.
      destruct (C39_quarter_partial g m R X U Y C d T u2 init x0 S ltac:(lia) Hi) as (q2 & F2 & _ & St2 & Ob2); rewrite E2 in F2; injection F2 as <-.
      apply (obeys2_until F O RT g W _ X U Y C T _ _ _ _ t Ob1 Ob2); [|exact Ht| |exact Hv].
      - intros w Hw; rewrite (St1 w Hw), (St2 w Hw); reflexivity.
      - intros s l Hs Hl; apply mixed_ext; intros j Hj; apply Hu; assumption.
    Qed.

    (** C36, influence at second order: what the shocks of a period add to the next one,
        given the deviations [x] of that period. *)
    Definition impact2 (g : rule F) (U Y : nat -> nat -> nat -> F) (x w : nat -> F) (i : nat) : F :=
      radd O (radd O (Sum (rk g) (fun l => rmul O (ru g i l) (w l)))
        (rmul O (rmul O half half) (Sum (rk g) (fun l => Sum (rk g) (fun m => rmul O (U i l m) (rmul O (w l) (w m)))))))
        (Sum (rs g) (fun a => Sum (rk g) (fun l => rmul O (Y i a l) (rmul O (x (state_at g a)) (w l))))).
    Theorem C36_influence_second_partial g m R X U Y C d T u1 u2 init x0 p1 p2 s : solved2 g m R X U Y C d -> init_dev F O m init x0 ->
      sim2 g d m T u1 init = Ok p1 -> sim2 g d m T u2 init = Ok p2 -> S s < T ->
      (forall r l, r < s -> l < rk g -> u1 r l = u2 r l) ->
      (forall v, v < rn g -> dev m p1 (S s) v = dev m p2 (S s) v) <->
      (forall i, i < rn g ->
         impact2 g U Y (dev m p1 s) (fun l => Sum (rk g) (fun j => rmul O (u1 s j) (R j l))) i =
         impact2 g U Y (dev m p1 s) (fun l => Sum (rk g) (fun j => rmul O (u2 s j) (R j l))) i).
    Proof using FT Two.
      intros S Hi E1 E2 Ht Hu; pose proof S as (W & _).
      assert (Now : forall v, v < rn g -> dev m p1 s v = dev m p2 s v).
      { intros v Hv; apply (C36_causal_second g m R X U Y C d T u1 u2 init x0 p1 p2 s S Hi E1 E2 ltac:(lia) Hu v Hv). }
      destruct (C39_quarter_partial g m R X U Y C d T u1 init x0 S ltac:(lia) Hi) as (q1 & F1 & _ & _ & Ob1); rewrite E1 in F1; injection F1 as <-.
      destruct (C39_quarter_partial g m R X U Y C d T u2 init x0 S ltac:(lia) Hi) as (q2 & F2 & _ & _ & Ob2); rewrite E2 in F2; injection F2 as <-.
      pose (A := fun i => radd O (Sum (rs g) (fun j => rmul O (ry g i j) (dev m p1 s (state_at g j))))
        (rmul O (rmul O half half) (radd O (Sum (rs g) (fun a => Sum (rs g) (fun b => rmul O (X i a b) (rmul O (dev m p1 s (state_at g a)) (dev m p1 s (state_at g b)))))) (C i)))).
      assert (D1 : forall i, i < rn g -> dev m p1 (Datatypes.S s) (var_at g i) = radd O (A i) (impact2 g U Y (dev m p1 s) (mixed F O (rk g) R u1 s) i)).
      { intros i Hi'; rewrite (Ob1 s i Ht Hi'); unfold A, impact2, quadratic; ring. }
      assert (D2 : forall i, i < rn g -> dev m p2 (Datatypes.S s) (var_at g i) = radd O (A i) (impact2 g U Y (dev m p1 s) (mixed F O (rk g) R u2 s) i)).
      { intros i Hi'; rewrite (Ob2 s i Ht Hi').
        assert (N : forall a, a < rs g -> dev m p2 s (state_at g a) = dev m p1 s (state_at g a)) by (intros a Ha; symmetry; apply Now, state_lt; assumption).
        unfold A, impact2, quadratic; change (SimSpec.Sum F O) with (rsum F O).
        rewrite (rsum_ext F O (rs g) (fun j => rmul O (ry g i j) (dev m p2 s (state_at g j))) (fun j => rmul O (ry g i j) (dev m p1 s (state_at g j)))) by (intros j Hj; rewrite N by exact Hj; reflexivity).
        rewrite (rsum_ext F O (rs g) (fun a => rsum F O (rs g) (fun b => rmul O (X i a b) (rmul O (dev m p2 s (state_at g a)) (dev m p2 s (state_at g b)))))
          (fun a => rsum F O (rs g) (fun b => rmul O (X i a b) (rmul O (dev m p1 s (state_at g a)) (dev m p1 s (state_at g b)))))) by (intros a Ha; apply rsum_ext; intros b Hb; rewrite !N by assumption; reflexivity).
        rewrite (rsum_ext F O (rs g) (fun a => rsum F O (rk g) (fun l => rmul O (Y i a l) (rmul O (dev m p2 s (state_at g a)) (mixed F O (rk g) R u2 s l))))
          (fun a => rsum F O (rk g) (fun l => rmul O (Y i a l) (rmul O (dev m p1 s (state_at g a)) (mixed F O (rk g) R u2 s l))))) by (intros a Ha; apply rsum_ext; intros l Hl; rewrite N by assumption; reflexivity).
        ring. }
      split.
      - intros H i Hi'; pose proof (H _ (var_lt F g W i Hi')) as E; rewrite D1, D2 in E by exact Hi'.
        change (impact2 g U Y (dev m p1 s) (mixed F O (rk g) R u1 s) i = impact2 g U Y (dev m p1 s) (mixed F O (rk g) R u2 s) i).
        match goal with |- ?a = ?b => replace a with (rsub O (radd O (A i) a) (A i)) by ring; rewrite E; ring end.
      - intros H v Hv; destruct (var_onto F g W v Hv) as (i & Hi' & <-); rewrite D1, D2 by exact Hi'; f_equal; exact (H i Hi').
    Qed.

    (** C62: exactly which solved models can be simulated for two periods or more. *)
    Theorem C62_first_iff_partial g m R T u init x0 : proper g -> describes g m -> chol (rk g) (m_sigma m) = Ok R -> 0 < T -> init_dev F O m init x0 ->
      (exists p, sim1 g m T u init = Ok p) <-> (rn g = 1 -> rk g = 1).
    Proof using FT.
      intros W D Hc HT Hi; assert (Hpos : 0 < rn g /\ 0 < rs g /\ 0 < rk g) by (destruct W as (_ & _ & _ & _ & H); exact H).
      split.
      - intros (p & E) E1; destruct (Nat.eq_dec (rk g) 1) as [|N]; [assumption|exfalso].
        unfold sim1 in E; rewrite (simulate_first_narrow F O chol g m R T u T _ init x0 W D E1 ltac:(lia) Hc HT Hi) in E; discriminate E.
      - intros H; destruct (C35_runs RT g m R T u init x0) as (p & E & _); eauto.
        split; [exact W|]; split; [exact D|]; split; [|exact Hc].
        destruct (Nat.eq_dec (rn g) 1) as [E1|]; [right; auto|left; lia].
    Qed.
    Theorem C62_second_iff_partial g m R X U Y C d T u init x0 : proper g -> describes g m -> chol (rk g) (m_sigma m) = Ok R ->
      second_derivatives F g X U Y C d -> 1 < T -> init_dev F O m init x0 ->
      (exists p, sim2 g d m T u init = Ok p) <-> (rn g = 1 \/ (rs g <> 1 /\ rk g <> 1)).
    Proof using FT Two.
      intros W D Hc Hd HT Hi; assert (Hpos : 0 < rn g /\ 0 < rs g /\ 0 < rk g) by (destruct W as (_ & _ & _ & _ & H); exact H).
      split.
      - intros (p & E); destruct (Nat.eq_dec (rn g) 1) as [|N]; [left; assumption|right].
        assert (Hf : rs g = 1 \/ rk g = 1 -> False).
        { intros Hone; unfold sim2 in E.
          rewrite (simulate_second_narrow F O chol inv FT Two g m X U Y C d R T u T _ init x0 W D Hd ltac:(lia) Hone Hc HT Hi) in E; discriminate E. }
        split; intros E1; apply Hf; auto.
      - intros H; destruct (C39_quarter_partial g m R X U Y C d T u init x0) as (p & E & _); eauto; [|lia].
        split; [exact W|]; split; [exact D|]; split; [|split; [exact Hc|exact Hd]].
        destruct H as [|[]]; [left; assumption|right; lia].
    Qed.
  End Field.
End Sims.

(** ** Concrete models *)

Definition q (x : Z) : Qc := Q2Qc (inject_Z x).
Lemma proper_dec {F} (g : rule F) : Permutation (rorder g) (seq 0 (rn g)) -> List.length (rstate g) = rs g ->
  NoDup (rstate g) -> forallb (fun s => s <? rn g) (rstate g) = true -> (0 <? rn g) && (0 <? rs g) && (0 <? rk g) = true -> proper g.
Proof.
  intros P L D B Z; apply andb_prop in Z; destruct Z as (Z & Z3); apply andb_prop in Z; destruct Z as (Z1 & Z2).
  apply Nat.ltb_lt in Z1, Z2, Z3; split; [exact P|]; split; [exact L|]; split; [exact D|]; split; [|auto].
  intros s Hs; rewrite forallb_forall in B; apply Nat.ltb_lt, B, Hs.
Qed.

(** Two variables, listed in the order 1, 0, the first of which is the state, and one
    shock: y' = 2 y + e, x' = 3 y + 5 e. *)
Definition ex_rule : rule Z := Rule 2 1 1 (fun i _ => if i =? 0 then 2%Z else 3%Z) (fun i _ => if i =? 0 then 1%Z else 5%Z) [1; 0] [0].
Definition ex_model : smodel Z := SModel [10%Z; 20%Z] [1; 0] [0] ["e"%string] (fun _ _ => 1%Z).
Definition ex_chol (k : nat) (s : nat -> nat -> Z) : res (nat -> nat -> Z) := Ok s.
Lemma ex_proper : proper ex_rule.
Proof.
  apply proper_dec; try reflexivity; cbn; [apply perm_swap|]; repeat constructor; cbn; intuition congruence.
Qed.
Lemma ex_solved : solved Z ex_chol ex_rule ex_model (fun _ _ => 1%Z).
Proof. split; [exact ex_proper|]; split; [repeat split|]; split; [left; cbn; lia|reflexivity]. Qed.
Definition ex_path (a b c : Z) : nat -> nat -> Z := fun t _ => nth t [a; b; c] 0%Z.

Example C35_nonvacuous : sim1 Z ZO ex_chol ex_rule ex_model 3 (ex_path 1 1 0) (Some (V1 2 (fun v => nth v [10; 21]%Z 0%Z))) =
  Ok [[10; 21]; [18; 23]; [24; 27]]%Z /\
  sim1 Z ZO ex_chol ex_rule ex_model 3 (ex_path 0 0 0) None = Ok [[10; 20]; [10; 20]; [10; 20]]%Z.
Proof. split; reflexivity. Qed.

(** C36: not every supplied shock influences the path. *)
Definition every_shock_counts : Prop :=
  forall (g : rule Z) m R T u1 u2 p1 p2, solved Z ex_chol g m R ->
    sim1 Z ZO ex_chol g m T u1 None = Ok p1 -> sim1 Z ZO ex_chol g m T u2 None = Ok p2 ->
    (exists t, t < T /\ exists i, i < rn g /\
       SimSpec.Sum Z ZO (rk g) (fun l => Z.mul (ru g i l) (mixed Z ZO (rk g) R u1 t l)) <>
       SimSpec.Sum Z ZO (rk g) (fun l => Z.mul (ru g i l) (mixed Z ZO (rk g) R u2 t l))) ->
    p1 <> p2.
Theorem C36_refuted : ~ every_shock_counts.
Proof.
  intros H.
  refine (H ex_rule ex_model _ 3 (ex_path 1 1 0) (ex_path 1 1 9) _ _ ex_solved eq_refl eq_refl _ eq_refl).
  exists 2; split; [lia|]; exists 0; split; [cbn; lia|]; discriminate.
Qed.
Example C36_nonvacuous : exists p1 p2,
  sim1 Z ZO ex_chol ex_rule ex_model 3 (ex_path 1 1 0) None = Ok p1 /\ sim1 Z ZO ex_chol ex_rule ex_model 3 (ex_path 1 2 0) None = Ok p2 /\
  dev Z ZO ex_model p1 1 0 = dev Z ZO ex_model p2 1 0 /\ dev Z ZO ex_model p1 2 0 <> dev Z ZO ex_model p2 2 0.
Proof. eexists; eexists; split; [reflexivity|]; split; [reflexivity|]; split; [reflexivity|discriminate]. Qed.

Example C37_nonvacuous : impulse_response Z ZO ex_chol ex_model (First (gy_of ex_rule) (gu_of ex_rule)) (Some (One "e"%string)) 4 7%Z =
  Ok [[0; 0]; [35; 7]; [21; 14]; [42; 28]]%Z.
Proof. reflexivity. Qed.

(** C38: two draws of one shock with variance 4. *)
Example C38_nonvacuous :
  let E (f : bool * bool -> Qc) := Qcdiv (Qcplus (Qcplus (f (true, true)) (f (true, false))) (Qcplus (f (false, true)) (f (false, false)))) (q 4) in
  let coin (b : bool) := if b then q 1 else q (-1) in
  let draw (w : bool * bool) (t j : nat) := if t =? 0 then coin (fst w) else coin (snd w) in
  let m := SModel [q 0] [0] [0] ["e"%string] (fun _ _ => q 4) in
  (forall f h, (forall w, f w = h w) -> E f = E h) /\
  (forall f h, E (fun w => radd QO (f w) (h w)) = radd QO (E f) (E h)) /\
  (forall a f, E (fun w => rmul QO a (f w)) = rmul QO a (E f)) /\
  (forall t j s l, t < 2 -> s < 2 -> j < 1 -> l < 1 ->
     E (fun w => rmul QO (draw w t j) (draw w s l)) = if (t =? s) && (j =? l) then r1 QO else r0 QO) /\
  SimSpec.Sum Qc QO 1 (fun j => rmul QO (q 2) (q 2)) = m_sigma m 0 0.
Proof.
  cbn zeta; split; [intros f h H; rewrite !H; reflexivity|].
  assert (N4 : q 4 <> q 0) by (apply same_neq; reflexivity).
  split; [intros f h; cbn [QO radd]; field; exact N4|].
  split; [intros a f; cbn [QO rmul]; field; exact N4|].
  split; [|apply same_eq; reflexivity].
  intros t j s l Ht Hs Hj Hl.
  destruct t as [|[|t]]; [| |lia]; destruct s as [|[|s]]; try lia; destruct j; try lia; destruct l; try lia; apply same_eq; reflexivity.
Qed.

(** C39: one variable, one state, one shock; x' = x + e and the second derivative in the
    state is 8. *)
Definition ex_rule1 : rule Qc := Rule 1 1 1 (fun _ _ => q 1) (fun _ _ => q 1) [0] [0].
Definition ex_model1 : smodel Qc := SModel [q 0] [0] [0] ["e"%string] (fun _ _ => q 1).
Definition ex_chol1 (k : nat) (s : nat -> nat -> Qc) : res (nat -> nat -> Qc) := Ok s.
Definition ex_d1 : derivatives Qc := Derivatives (S0 (q 8)) (S0 (q 0)) (S0 (q 0)) (S0 (q 0)).
Definition three (x : Qc) : nat -> nat -> nat -> Qc := fun _ _ _ => x.
Lemma ex_solved1 : solved2 Qc ex_chol1 ex_rule1 ex_model1 (fun _ _ => q 1) (three (q 8)) (three (q 0)) (three (q 0)) (fun _ => q 0) ex_d1.
Proof.
  split; [apply proper_dec; try reflexivity; repeat constructor; intros []|].
  split; [repeat split|]; split; [left; reflexivity|]; split; [reflexivity|].
  repeat split; eexists; (split; [reflexivity|]); reflexivity.
Qed.
Definition second_order_is_taylor : Prop :=
  forall (g : rule Qc) m R X U Y C d T u init x0 p, solved2 Qc ex_chol1 g m R X U Y C d -> init_dev Qc QO m init x0 ->
    sim2 Qc QO ex_chol1 g d m T u init = Ok p ->
    obeys2 Qc QO (half Qc QO) g X U Y C T (mixed Qc QO (rk g) R u) (dev Qc QO m p).
Theorem C39_refuted : ~ second_order_is_taylor.
Proof.
  intros H.
  specialize (H _ _ _ _ _ _ _ _ 2 (fun _ _ => q 0) (Some (V1 1 (fun _ => q 1))) _ _ ex_solved1 (init_some Qc QO ex_model1 _) eq_refl 0 0 ltac:(lia) ltac:(cbn; lia)).
  revert H; apply same_neq; vm_compute; reflexivity.
Qed.
(** Two states and two shocks. *)
Definition ex_rule2 : rule Qc := Rule 2 2 2 (fun i j => q (Z.of_nat (i + j))) (fun i j => q (Z.of_nat (1 + i * j))) [1; 0] [0; 1].
Definition ex_model2 : smodel Qc := SModel [q 1; q 2] [1; 0] [0; 1] ["e"%string; "f"%string] (fun i j => if i =? j then q 1 else q 0).
Definition ex_d2 : derivatives Qc :=
  Derivatives (M2 2 4 (fun i c => q (Z.of_nat (i + c)))) (M2 2 4 (fun i c => q (Z.of_nat (i * c)))) (M2 2 4 (fun _ _ => q 3)) (V1 2 (fun i => q (Z.of_nat i))).
Example C39_nonvacuous : exists R X U Y C,
  solved2 Qc ex_chol1 ex_rule2 ex_model2 R X U Y C ex_d2 /\
  exists p, sim2 Qc QO ex_chol1 ex_rule2 ex_d2 ex_model2 3 (fun t l => q (Z.of_nat (t + l))) None = Ok p.
Proof.
  do 5 eexists; split.
  - split; [apply proper_dec; try reflexivity; cbn; [apply perm_swap|]; repeat constructor; cbn; intuition congruence|].
    split; [repeat split|]; split; [right; cbn; lia|]; split; [reflexivity|].
    split; [eexists; split; [reflexivity|]; intros i a b _ _ _; instantiate (1 := fun i a b => _); cbn beta; reflexivity|].
    split; [eexists; split; [reflexivity|]; intros i a b _ _ _; instantiate (1 := fun i a b => _); cbn beta; reflexivity|].
    split; [eexists; split; [reflexivity|]; intros i a b _ _ _; instantiate (1 := fun i a b => _); cbn beta; reflexivity|].
    eexists; split; [reflexivity|]; intros i _; instantiate (1 := fun i => _); cbn beta; reflexivity.
  - eexists; reflexivity.
Qed.

(** C36 at second order: the shocks of the second period move the third. *)
Example C36_second_nonvacuous : exists p1 p2,
  (sim2 Qc QO ex_chol1 ex_rule2 ex_d2 ex_model2 3 (fun t l => q (Z.of_nat (t + l))) None = Ok p1) /\
  (sim2 Qc QO ex_chol1 ex_rule2 ex_d2 ex_model2 3 (fun t l => q (Z.of_nat (t + t + l))) None = Ok p2) /\
  (dev Qc QO ex_model2 p1 1 0 = dev Qc QO ex_model2 p2 1 0) /\ dev Qc QO ex_model2 p1 2 0 <> dev Qc QO ex_model2 p2 2 0.
Proof. eexists; eexists; split; [reflexivity|]; split; [reflexivity|]; split; [apply same_eq; vm_compute; reflexivity|apply same_neq; vm_compute; reflexivity]. Qed.

(** C62: a solved model cannot always be simulated. *)
Definition solved_models_simulate : Prop :=
  forall (g : rule Qc) m R X U Y C d T u, proper g -> describes g m -> ex_chol1 (rk g) (m_sigma m) = Ok R ->
    second_derivatives Qc g X U Y C d -> 0 < T -> exists p, sim2 Qc QO ex_chol1 g d m T u None = Ok p.
Definition ex_rule3 : rule Qc := Rule 2 1 1 (fun _ _ => q 1) (fun _ _ => q 1) [1; 0] [0].
Definition ex_model3 : smodel Qc := SModel [q 1; q 2] [1; 0] [0] ["e"%string] (fun i j => q 1).
Definition ex_d3 : derivatives Qc := Derivatives (V1 2 (fun _ => q 0)) (V1 2 (fun _ => q 0)) (V1 2 (fun _ => q 0)) (V1 2 (fun _ => q 0)).
Theorem C62_refuted : ~ solved_models_simulate.
Proof.
  intros H.
  destruct (H ex_rule3 ex_model3 (fun _ _ => q 1) (three (q 0)) (three (q 0)) (three (q 0)) (fun _ => q 0) ex_d3 2 (fun _ _ => q 0)) as (p & E).
  - apply proper_dec; try reflexivity; cbn; [apply perm_swap|]; repeat constructor; cbn; intuition congruence.
  - repeat split.
  - reflexivity.
  - repeat split; eexists; (split; [reflexivity|]); reflexivity.
  - lia.
  - vm_compute in E; discriminate E.
Qed.
Example C62_nonvacuous : exists p, sim1 Qc QO ex_chol1 ex_rule3 ex_model3 2 (fun _ _ => q 0) None = Ok p.
Proof. eexists; reflexivity. Qed.

Print Assumptions C35_linear.
Print Assumptions C35_rest.
Print Assumptions C35_runs.
Print Assumptions C36_causal_first.
Print Assumptions C36_causal_second.
Print Assumptions C36_last_unused.
Print Assumptions C36_influence_partial.
Print Assumptions C36_influence_second_partial.
Print Assumptions C36_refuted.
Print Assumptions C37_powers.
Print Assumptions C37_transition_exists.
Print Assumptions C38_covariance.
Print Assumptions C38_used.
Print Assumptions C39_quarter_partial.
Print Assumptions C39_taylor_iff.
Print Assumptions C39_refuted.
Print Assumptions C62_first_iff_partial.
Print Assumptions C62_second_iff_partial.
Print Assumptions C62_refuted.
