(** Simulations of a solved model: paths are determined by the rule, and consequences. *)
From Verif Require Import Base Semantics Nd SimSpec NdProofs Sim SimProofs SimProofs2.
From Coq Require Import Ring Field Permutation.

Section Paths.
  Variable F : Type.
  Variable O : rops F.
  Hypothesis RT : is_ring O.
  Let RT' : ring_theory (r0 O) (r1 O) (radd O) (rmul O) (rsub O) (ropp O) eq := RT.
  Add Ring Fring : RT'.
  Notation Sum := (SimSpec.Sum F O).
  Notation rsum := (Nd.rsum F O).
  Notation get := (Sim.get F O).
  Notation value := (SimSpec.value F O).

  Variable g : rule F.
  Hypothesis W : proper g.

  Lemma var_onto v : v < rn g -> exists i, i < rn g /\ var_at g i = v.
  Proof using W. intros Hv; destruct W as (P & _); exact (perm_onto _ _ _ P Hv). Qed.
  Lemma var_lt i : i < rn g -> var_at g i < rn g.
  Proof using W. intros Hi; destruct W as (P & _); exact (perm_lt _ _ _ P Hi). Qed.
  Lemma state_lt j : j < rs g -> state_at g j < rn g.
  Proof using W.
    intros Hj; unfold state_at; destruct W as (P & L & _ & B & _); apply perm_lt; [exact P|].
    apply B, nth_In; lia.
  Qed.

  (** Two paths of the same rule that start alike and see the same shocks before [t]
      agree in [t]. *)
  Lemma obeys_until T u1 u2 x1 x2 t : obeys F O g T u1 x1 -> obeys F O g T u2 x2 ->
    (forall v, v < rn g -> x1 0 v = x2 0 v) ->
    t < T -> (forall s l, s < t -> l < rk g -> u1 s l = u2 s l) ->
    forall v, v < rn g -> x1 t v = x2 t v.
  Proof using W RT.
    intros H1 H2 H0; induction t as [|t IH]; intros Ht Hu v Hv; [apply H0; exact Hv|].
    destruct (var_onto v Hv) as (i & Hi & <-).
    rewrite H1, H2 by assumption; change Sum with rsum; f_equal; apply rsum_ext; intros j Hj; f_equal.
    - apply IH; [lia|intros s l Hs Hl; apply Hu; lia|apply state_lt; exact Hj].
    - apply Hu; [lia|exact Hj].
  Qed.

  Lemma obeys_comb T u1 u2 x1 x2 a b : obeys F O g T u1 x1 -> obeys F O g T u2 x2 ->
    obeys F O g T (fun t l => radd O (rmul O a (u1 t l)) (rmul O b (u2 t l)))
                  (fun t v => radd O (rmul O a (x1 t v)) (rmul O b (x2 t v))).
  Proof using RT.
    intros H1 H2 t i Ht Hi; rewrite H1, H2 by assumption; change Sum with rsum.
    assert (E1 : rsum (rs g) (fun j => rmul O (ry g i j) (radd O (rmul O a (x1 t (state_at g j))) (rmul O b (x2 t (state_at g j))))) =
      radd O (rmul O a (rsum (rs g) (fun j => rmul O (ry g i j) (x1 t (state_at g j)))))
             (rmul O b (rsum (rs g) (fun j => rmul O (ry g i j) (x2 t (state_at g j)))))).
    { rewrite <- !rsum_mul_l, <- rsum_add by exact RT; apply rsum_ext; intros j _; ring. }
    assert (E2 : rsum (rk g) (fun l => rmul O (ru g i l) (radd O (rmul O a (u1 t l)) (rmul O b (u2 t l)))) =
      radd O (rmul O a (rsum (rk g) (fun l => rmul O (ru g i l) (u1 t l))))
             (rmul O b (rsum (rk g) (fun l => rmul O (ru g i l) (u2 t l))))).
    { rewrite <- !rsum_mul_l, <- rsum_add by exact RT; apply rsum_ext; intros j _; ring. }
    rewrite E1, E2; ring.
  Qed.

  Lemma obeys_rest T : obeys F O g T (fun _ _ => r0 O) (fun _ _ => r0 O).
  Proof using RT.
    intros t i _ _; change Sum with rsum.
    rewrite !rsum_all_zero by (try exact RT; intros j _; ring); ring.
  Qed.

  (** After one impulse the path is made of powers of the transition. *)
  Lemma obeys_powers T u x P : transition F O g P -> obeys F O g T u x ->
    (forall t l, 0 < t -> l < rk g -> u t l = r0 O) ->
    forall t v, S t < T -> v < rn g -> x (S t) v = power F O (rn g) P t (x 1) v.
  Proof using W RT.
    intros HP H Hz; induction t as [|t IH]; intros v Ht Hv; [reflexivity|].
    destruct (var_onto v Hv) as (i & Hi & <-); cbn [power].
    assert (E : Sum (rn g) (fun w => rmul O (P (var_at g i) w) (power F O (rn g) P t (x 1) w)) =
                Sum (rn g) (fun w => rmul O (P (var_at g i) w) (x (S t) w))).
    { change Sum with rsum; apply rsum_ext; intros w Hw; rewrite IH by (try exact Hw; lia); reflexivity. }
    rewrite E, (HP i (x (S t)) Hi), H by (try exact Hi; lia).
    change Sum with rsum; rewrite (rsum_all_zero F O RT (rk g)) by (intros l Hl; rewrite Hz by (try exact Hl; lia); ring); ring.
  Qed.

  (** Such a matrix exists. *)
  Definition trans_matrix (v w : nat) : F :=
    Sum (rn g) (fun i => Sum (rs g) (fun j =>
      if (var_at g i =? v) && (state_at g j =? w) then ry g i j else r0 O)).
  Lemma order_inj i i' : i < rn g -> i' < rn g -> var_at g i = var_at g i' -> i = i'.
  Proof using W.
    destruct W as (P & _); intros Hi Hi' E.
    apply (proj1 (NoDup_nth (rorder g) 0)); try (rewrite (perm_length _ _ P); assumption); [|exact E].
    eapply Permutation_NoDup; [apply Permutation_sym; exact P|apply seq_NoDup].
  Qed.
  Lemma trans_matrix_ok : transition F O g trans_matrix.
  Proof using W RT.
    intros i x Hi; unfold trans_matrix; change Sum with rsum.
    transitivity (rsum (rn g) (fun w => rsum (rs g) (fun j => if state_at g j =? w then rmul O (ry g i j) (x w) else r0 O))).
    { apply rsum_ext; intros w Hw; rewrite (rsum_single F O RT (rn g) i); [|exact Hi|].
      - rewrite Nat.eqb_refl; cbn [andb]; rewrite <- rsum_mul_r by exact RT; apply rsum_ext; intros j _.
        destruct (state_at g j =? w); ring.
      - intros i' Hi' N; apply rsum_all_zero; [exact RT|]; intros j _.
        destruct (Nat.eqb_spec (var_at g i') (var_at g i)) as [E|_]; [|reflexivity].
        exfalso; apply N, order_inj; assumption. }
    rewrite rsum_swap by exact RT; apply rsum_ext; intros j Hj.
    rewrite (rsum_single F O RT (rn g) (state_at g j)); [rewrite Nat.eqb_refl; reflexivity|apply state_lt; exact Hj|].
    intros w _ N; destruct (Nat.eqb_spec (state_at g j) w) as [E|_]; [congruence|reflexivity].
  Qed.
End Paths.

(** ** Solved models *)

Section Solved.
  Variable F : Type.
  Variable O : rops F.
  Notation value := (SimSpec.value F O).

  (** The model has the rule [g] as its first-order solution: as many variables, shocks
      and states, in the same order, and the matrices of [g], squeezed as the solver
      does (first_order.py:99-100). *)
  Definition describes (g : rule F) (m : smodel F) : Prop :=
    List.length (m_ss m) = rn g /\ List.length (m_shocks m) = rk g /\ m_order m = rorder g /\ m_state m = rstate g.
  Definition gy_of (g : rule F) : nd F := squeeze F (M2 (rn g) (rs g) (ry g)).
  Definition gu_of (g : rule F) : nd F := squeeze F (M2 (rn g) (rk g) (ru g)).

  (** Shocks in the model's units: row [t] of [u] times the Cholesky factor. *)
  Definition mixed (k : nat) (R : nat -> nat -> F) (u : nat -> nat -> F) (t l : nat) : F :=
    SimSpec.Sum F O k (fun j => rmul O (u t j) (R j l)).
  (** Deviations from the steady state. *)
  Definition dev (m : smodel F) (p : list (list F)) (t v : nat) : F :=
    rsub O (value p t v) (nth v (m_ss m) (r0 O)).
  (** Initial deviations for an argument [init] of the simulation. *)
  Definition init_dev (m : smodel F) (init : option (nd F)) (x0 : nat -> F) : Prop :=
    (init = None /\ forall v, v < List.length (m_ss m) -> x0 v = r0 O) \/
    (exists i0, init = Some (V1 (List.length (m_ss m)) i0) /\
       forall v, v < List.length (m_ss m) -> x0 v = rsub O (i0 v) (nth v (m_ss m) (r0 O))).

  Variable chol : nat -> (nat -> nat -> F) -> res (nat -> nat -> F).

  Section First.
    Hypothesis RT : is_ring O.
    Let RT' : ring_theory (r0 O) (r1 O) (radd O) (rmul O) (rsub O) (ropp O) eq := RT.
    Add Ring Fring2 : RT'.
    Theorem simulate_first_model g m R T u per noise init x0 : proper g -> describes g m -> 1 < rn g \/ rk g = 1 ->
      chol (rk g) (m_sigma m) = Ok R -> 0 < T -> init_dev m init x0 ->
      exists p, simulate F O chol m (First (gy_of g) (gu_of g)) (Some (M2 T (rk g) u)) per noise init = Ok p /\
        table F T (rn g) p /\ starts F g x0 (dev m p) /\ obeys F O g T (mixed (rk g) R u) (dev m p).
    Proof.
      intros W (Ls & Lk & Eo & Es) Hw Hc HT Hi.
      unfold simulate, gen_shocks; rewrite Lk, Hc; cbn [bind ensure2 nmatmul]; rewrite Nat.eqb_refl; cbn [bind].
      rewrite Eo, Es, Ls; change (Nd.rsum F O) with (SimSpec.Sum F O).
      destruct Hi as [(-> & Hz)|(i0 & -> & Hz)].
      - destruct (simulate_first_ok F O RT g W Hw (m_ss m) T (mixed (rk g) R u) (get F O (m_ss m)) Ls HT) as (p & E & Tb & St & Ob).
        exists p; split; [exact E|]; split; [exact Tb|]; split; [|exact Ob].
        intros v Hv; etransitivity; [exact (St v Hv)|]; rewrite Hz by (rewrite Ls; exact Hv); ring.
      - rewrite Ls in *; destruct (simulate_first_ok F O RT g W Hw (m_ss m) T (mixed (rk g) R u) i0 Ls HT) as (p & E & Tb & St & Ob).
        exists p; split; [exact E|]; split; [exact Tb|]; split; [|exact Ob].
        intros v Hv; etransitivity; [exact (St v Hv)|]; rewrite Hz by exact Hv; reflexivity.
    Qed.

    (** One variable and several shocks cannot be simulated. *)
    Theorem simulate_first_narrow g m R T u per noise init x0 : proper g -> describes g m -> rn g = 1 -> 1 < rk g ->
      chol (rk g) (m_sigma m) = Ok R -> 0 < T -> init_dev m init x0 ->
      simulate F O chol m (First (gy_of g) (gu_of g)) (Some (M2 T (rk g) u)) per noise init = Err ValueErr.
    Proof.
      intros W (Ls & Lk & Eo & Es) E1 Hk Hc HT Hi.
      unfold simulate, gen_shocks; rewrite Lk, Hc; cbn [bind ensure2 nmatmul]; rewrite Nat.eqb_refl; cbn [bind].
      assert (G : exists i0, match init with Some i => i | None => V1 (List.length (m_ss m)) (get F O (m_ss m)) end = V1 (List.length (m_ss m)) i0).
      { destruct Hi as [(-> & _)|(i0 & -> & _)]; eexists; reflexivity. }
      destruct G as (i0 & ->); unfold simulate_first; cbn [rows].
      unfold nsub, elementwise; rewrite axis_same; cbn [bind].
      unfold spread; rewrite Nat.eqb_refl; cbn [orb bind].
      destruct (Nat.eqb_spec T 0); [lia|].
      unfold gu_of, squeeze; rewrite E1; cbn [Nat.eqb]; destruct (Nat.eqb_spec (rk g) 1); [lia|].
      cbn [ensure2 ntrans nmatmul]; destruct (Nat.eqb_spec (rk g) 1); [lia|]; reflexivity.
    Qed.
  End First.

  Section Second.
    Variable inv : F -> F.
    Variable FT : is_field O inv.
    Hypothesis Two : twice_one O <> r0 O.
    Let FT' : field_theory (r0 O) (r1 O) (radd O) (rmul O) (rsub O) (ropp O) (rdiv O) inv eq := FT.
    Add Field Ffield3 : FT'.
    Let RT : is_ring O := F_R FT'.

    (** The solver's arrays hold the second derivatives X, U, Y, C. *)
    Definition second_derivatives (g : rule F) (X U Y : nat -> nat -> nat -> F) (C : nat -> F) (d : derivatives F) : Prop :=
      (exists f, ensure2 F (gxx d) = M2 (rn g) (rs g * rs g) f /\
         forall i a b, i < rn g -> a < rs g -> b < rs g -> f i (a * rs g + b) = X i a b) /\
      (exists f, ensure2 F (guu d) = M2 (rn g) (rk g * rk g) f /\
         forall i a b, i < rn g -> a < rk g -> b < rk g -> f i (a * rk g + b) = U i a b) /\
      (exists f, ensure2 F (gxu d) = M2 (rn g) (rs g * rk g) f /\
         forall i a b, i < rn g -> a < rs g -> b < rk g -> f i (a * rk g + b) = Y i a b) /\
      (exists f, ensure2 F (gss d) = M2 (rn g) 1 f /\ forall i, i < rn g -> f i 0 = C i).

    Lemma columns_of n r c a (Q : nat -> nat -> nat -> F) f : 0 < c -> ensure2 F a = M2 n (r * c) f ->
      (forall i x y, i < n -> x < r -> y < c -> f i (x * c + y) = Q i x y) -> matl F n (r * c) a (columns F c Q).
    Proof.
      intros Hc E H; exists f; split; [exact E|]; intros i j Hi Hj; unfold columns.
      rewrite <- H; [|exact Hi|apply Nat.div_lt_upper_bound; [lia|rewrite Nat.mul_comm; exact Hj]|apply Nat.mod_upper_bound; lia].
      f_equal; rewrite (Nat.mul_comm (j / c)); apply Nat.div_mod; lia.
    Qed.

    Theorem simulate_second_model g m X U Y C d R T u per noise init x0 : proper g -> describes g m ->
      second_derivatives g X U Y C d -> rn g = 1 \/ (1 < rs g /\ 1 < rk g) ->
      chol (rk g) (m_sigma m) = Ok R -> 0 < T -> init_dev m init x0 ->
      exists p, simulate F O chol m (second_solution F O (gy_of g) (gu_of g) d) (Some (M2 T (rk g) u)) per noise init = Ok p /\
        table F T (rn g) p /\ starts F g x0 (dev m p) /\
        obeys2 F O (quarter F O) g X U Y C T (mixed (rk g) R u) (dev m p).
    Proof using FT Two.
      intros W (Ls & Lk & Eo & Es) ((fx & Ex & Hx) & (fu & Eu & Hu) & (fy & Ey & Hy) & (fc & Ec & Hc')) Hw Hc HT Hi.
      assert (Hpos : 0 < rn g /\ 0 < rs g /\ 0 < rk g) by (destruct W as (_ & _ & _ & _ & H); exact H).
      assert (DX := columns_of (rn g) (rs g) (rs g) _ X fx ltac:(lia) Ex Hx); assert (DU := columns_of (rn g) (rk g) (rk g) _ U fu ltac:(lia) Eu Hu).
      assert (DY := columns_of (rn g) (rs g) (rk g) _ Y fy ltac:(lia) Ey Hy).
      assert (DC : matl F (rn g) 1 (gss d) (fun i _ => C i)).
      { exists fc; split; [exact Ec|]; intros i j Hj Hj1; replace j with 0 by lia; apply Hc'; exact Hj. }
      unfold simulate, gen_shocks; rewrite Lk, Hc; cbn [bind ensure2 nmatmul]; rewrite Nat.eqb_refl; cbn [bind].
      unfold second_solution; rewrite Eo, Es, Ls; change (Nd.rsum F O) with (SimSpec.Sum F O).
      destruct Hi as [(-> & Hz)|(i0 & -> & Hz)].
      - destruct (simulate_second_ok F O inv FT Two g W (m_ss m) Ls X U Y C d DX DU DY DC T (mixed (rk g) R u) (get F O (m_ss m)) Hw HT) as (p & E & Tb & St & Ob).
        exists p; split; [exact E|]; split; [exact Tb|]; split; [|exact Ob].
        intros v Hv; etransitivity; [exact (St v Hv)|]; rewrite Hz by (rewrite Ls; exact Hv); ring.
      - rewrite Ls in *.
        destruct (simulate_second_ok F O inv FT Two g W (m_ss m) Ls X U Y C d DX DU DY DC T (mixed (rk g) R u) i0 Hw HT) as (p & E & Tb & St & Ob).
        exists p; split; [exact E|]; split; [exact Tb|]; split; [|exact Ob].
        intros v Hv; etransitivity; [exact (St v Hv)|]; rewrite Hz by exact Hv; reflexivity.
    Qed.

    Theorem simulate_second_narrow g m X U Y C d R T u per noise init x0 : proper g -> describes g m ->
      second_derivatives g X U Y C d -> 1 < rn g -> rs g = 1 \/ rk g = 1 ->
      chol (rk g) (m_sigma m) = Ok R -> 1 < T -> init_dev m init x0 ->
      simulate F O chol m (second_solution F O (gy_of g) (gu_of g) d) (Some (M2 T (rk g) u)) per noise init = Err ValueErr.
    Proof using FT Two.
      intros W (Ls & Lk & Eo & Es) ((fx & Ex & Hx) & (fu & Eu & Hu) & (fy & Ey & Hy) & (fc & Ec & Hc')) Hn Hone Hc HT Hi.
      assert (Hpos : 0 < rn g /\ 0 < rs g /\ 0 < rk g) by (destruct W as (_ & _ & _ & _ & H); exact H).
      assert (DX := columns_of (rn g) (rs g) (rs g) _ X fx ltac:(lia) Ex Hx); assert (DU := columns_of (rn g) (rk g) (rk g) _ U fu ltac:(lia) Eu Hu).
      assert (DY := columns_of (rn g) (rs g) (rk g) _ Y fy ltac:(lia) Ey Hy).
      assert (DC : matl F (rn g) 1 (gss d) (fun i _ => C i)).
      { exists fc; split; [exact Ec|]; intros i j Hj Hj1; replace j with 0 by lia; apply Hc'; exact Hj. }
      unfold simulate, gen_shocks; rewrite Lk, Hc; cbn [bind ensure2 nmatmul]; rewrite Nat.eqb_refl; cbn [bind].
      unfold second_solution; rewrite Eo, Es, Ls; change (Nd.rsum F O) with (SimSpec.Sum F O).
      destruct Hi as [(-> & Hz)|(i0 & -> & Hz)]; rewrite ?Ls.
      - exact (simulate_second_fails F O inv FT Two g W (m_ss m) Ls X U Y C d DX DU DY DC T (mixed (rk g) R u) (get F O (m_ss m)) Hn Hone HT).
      - exact (simulate_second_fails F O inv FT Two g W (m_ss m) Ls X U Y C d DX DU DY DC T (mixed (rk g) R u) i0 Hn Hone HT).
    Qed.
  End Second.
End Solved.
Arguments describes {F}. Arguments gy_of {F}. Arguments gu_of {F}.

(** ** Causality with second-order terms *)
Section Paths2.
  Variable F : Type.
  Variable O : rops F.
  Hypothesis RT : is_ring O.
  Variable g : rule F.
  Hypothesis W : proper g.

  Lemma obeys2_until c X U Y C T u1 u2 x1 x2 t : obeys2 F O c g X U Y C T u1 x1 -> obeys2 F O c g X U Y C T u2 x2 ->
    (forall v, v < rn g -> x1 0 v = x2 0 v) ->
    t < T -> (forall s l, s < t -> l < rk g -> u1 s l = u2 s l) ->
    forall v, v < rn g -> x1 t v = x2 t v.
  Proof using W RT.
    intros H1 H2 H0; induction t as [|t IH]; intros Ht Hu v Hv; [apply H0; exact Hv|].
    destruct (var_onto F g W v Hv) as (i & Hi & <-).
    assert (E : forall j, j < rs g -> x1 t (state_at g j) = x2 t (state_at g j)).
    { intros j Hj; apply IH; [lia|intros s l Hs Hl; apply Hu; lia|apply state_lt; assumption]. }
    assert (D : forall l, l < rk g -> u1 t l = u2 t l) by (intros l Hl; apply Hu; [lia|exact Hl]).
    rewrite H1, H2 by assumption; unfold quadratic; change (Sum F O) with (rsum F O).
    f_equal; [f_equal; [f_equal|f_equal; f_equal; f_equal]|];
      apply rsum_ext; intros j Hj; rewrite ?(E j Hj), ?(D j Hj); try reflexivity;
      apply rsum_ext; intros l Hl; rewrite ?(E l Hl), ?(D l Hl); reflexivity.
  Qed.
End Paths2.

(** ** Impulses *)
Section Impulses.
  Lemma where_in x names : forall k i, In i (where_ x names k) <-> k <= i /\ nth_error names (i - k) = Some x.
  Proof.
    induction names as [|y names IH]; intros k i; cbn [where_].
    - split; [intros []|]; intros (_ & H); destruct (i - k); discriminate H.
    - assert (R : In i (where_ x names (S k)) <-> S k <= i /\ nth_error (y :: names) (i - k) = Some x).
      { rewrite IH; split; intros (H1 & H2); (split; [lia|]); replace (i - k) with (S (i - S k)) in * by lia; exact H2. }
      destruct (String.eqb_spec x y) as [<-|N]; cbn [In]; rewrite R; split.
      + intros [<-|(H1 & H2)]; [split; [lia|]; rewrite Nat.sub_diag; reflexivity|split; [lia|exact H2]].
      + intros (H1 & H2); destruct (Nat.eq_dec k i) as [->|]; [left; reflexivity|right; split; [lia|exact H2]].
      + intros (H1 & H2); split; [lia|exact H2].
      + intros (H1 & H2); split; [|exact H2].
        destruct (Nat.eq_dec i k) as [->|]; [|lia]; rewrite Nat.sub_diag in H2; cbn in H2; congruence.
  Qed.
  Lemma where_NoDup x names : forall k, NoDup names -> List.length (where_ x names k) <= 1.
  Proof.
    intros k D; destruct (where_ x names k) as [|i [|j l]] eqn:E; cbn; try lia.
    assert (NoDup (where_ x names k)).
    { clear E i j l D; revert k; induction names as [|y names IH]; intros k; cbn [where_]; [constructor|].
      destruct (x =? y)%string; [|apply IH]; constructor; [|apply IH].
      intros H; apply where_in in H; lia. }
    assert (Hi : In i (where_ x names k)) by (rewrite E; left; reflexivity).
    assert (Hj : In j (where_ x names k)) by (rewrite E; right; left; reflexivity).
    apply where_in in Hi, Hj; destruct Hi as (Bi & Hi), Hj as (Bj & Hj).
    assert (i - k = j - k).
    { apply (proj1 (NoDup_nth_error names) D); [apply nth_error_Some; congruence|congruence]. }
    rewrite E in H; inversion H as [|a b N _]; exfalso; apply N; left; lia.
  Qed.
  Lemma loc1_ok names x : NoDup names -> In x names -> exists i, loc1 names x = Ok i /\ nth_error names i = Some x.
  Proof.
    intros D Hx; apply In_nth_error in Hx; destruct Hx as (i & Hi).
    assert (Hw : In i (where_ x names 0)) by (apply where_in; rewrite Nat.sub_0_r; split; [lia|exact Hi]).
    pose proof (where_NoDup x names 0 D) as L; unfold loc1.
    destruct (where_ x names 0) as [|j [|j' l]] eqn:E; cbn in L; [destruct Hw| |lia].
    destruct Hw as [<-|[]]; eauto.
  Qed.
  Lemma loc_many names xs : NoDup names -> (forall x, In x xs -> In x names) ->
    exists l, mapM (loc1 names) xs = Ok l /\ forall i, In i l <-> exists x, In x xs /\ nth_error names i = Some x.
  Proof.
    intros D; induction xs as [|x xs IH]; intros H.
    - exists []; split; [reflexivity|]; intros i; split; [intros []|intros (x & [] & _)].
    - destruct (loc1_ok names x D (H x (or_introl eq_refl))) as (i & E & Hi).
      destruct (IH (fun y Hy => H y (or_intror Hy))) as (l & El & Hl).
      exists (i :: l); split; [cbn [mapM]; rewrite E; cbn [bind]; rewrite El; reflexivity|].
      intros j; split.
      + intros [<-|Hj]; [exists x; split; [left; reflexivity|exact Hi]|].
        apply Hl in Hj; destruct Hj as (y & Hy & E'); exists y; split; [right; exact Hy|exact E'].
      + intros (y & [<-|Hy] & E'); [left|right; apply Hl; eauto].
        apply (proj1 (NoDup_nth_error names) D); [apply nth_error_Some; congruence|congruence].
  Qed.
End Impulses.
