(** Moments: selection of shares by name; shares as shares of variances. *)
From Verif Require Import Base Semantics Nd NdProofs SimSpec Sim SimProofs3 Mat MatProofs MomentsSpec Moments MomentsProofs MomentsProofs2 MomentsProofs3 MomentsProofs4.
From Coq Require Import Ring Field Permutation.
Local Open Scope nat_scope.

(** ** Names *)

Lemma where_none x names : forall k, ~ In x names -> where_ x names k = [].
Proof.
  induction names as [|y names IH]; intros k H; cbn; [reflexivity|]; destruct (String.eqb_spec x y) as [->|N]; [exfalso; apply H; left; reflexivity|].
  apply IH; intros I; apply H; right; exact I.
Qed.
Lemma where_one x names : forall k i, NoDup names -> nth_error names i = Some x -> where_ x names k = [k + i].
Proof.
  induction names as [|y names IH]; intros k i ND H; [destruct i; discriminate|]; inversion ND as [|? ? NI ND']; subst; cbn.
  destruct i as [|i]; cbn in H.
  - injection H as ->; rewrite String.eqb_refl, (where_none x names _ NI), Nat.add_0_r; reflexivity.
  - destruct (String.eqb_spec x y) as [->|N]; [exfalso; apply NI, (nth_error_In _ _ H)|]; rewrite (IH (S k) i ND' H); f_equal; lia.
Qed.
Lemma locate_one names x i : NoDup names -> nth_error names i = Some x -> locate names x = Ok i.
Proof. intros ND H; unfold locate; rewrite (where_one x names 0 i ND H); reflexivity. Qed.
Lemma locate_none names x : ~ In x names -> locate names x = Err ValueErr.
Proof. intros H; unfold locate; rewrite where_none by exact H; reflexivity. Qed.
Lemma locate_all names xs : NoDup names -> (forall x, In x xs -> In x names) ->
  exists idx, mapM (locate names) xs = Ok idx /\ List.length idx = List.length xs /\ (forall i, In i idx -> i < List.length names) /\
    forall j x i, nth_error xs j = Some x -> nth_error names i = Some x -> nth j idx 0 = i.
Proof.
  intros ND; induction xs as [|x xs IH]; intros H; cbn [mapM].
  - exists []; repeat split; [intros i []|intros [|j] x i E; discriminate].
  - destruct (In_nth_error _ _ (H x (or_introl eq_refl))) as (p & Ep); rewrite (locate_one _ _ _ ND Ep); cbn [bind].
    destruct IH as (idx & -> & L & B & P); [intros z Hz; apply H; right; exact Hz|]; cbn [bind]; exists (p :: idx); split; [reflexivity|].
    split; [cbn; lia|]; split.
    + intros i [<-|Hi]; [apply nth_error_Some; congruence|apply B, Hi].
    + intros [|j] z i E1 E2; cbn in E1 |- *; [|exact (P j z i E1 E2)]; injection E1 as ->.
      pose proof (locate_one _ _ _ ND Ep) as L1; rewrite (locate_one _ _ _ ND E2) in L1; congruence.
Qed.
Lemma locate_some_unknown names xs x : In x xs -> ~ In x names -> mapM (locate names) xs = Err ValueErr.
Proof.
  induction xs as [|z xs IH]; intros I N; [contradiction|]; cbn [mapM].
  assert (E : locate names z = Err ValueErr \/ exists i, locate names z = Ok i) by (unfold locate; destruct (where_ z names 0) as [|i [|]]; eauto).
  destruct E as [->|(i & E)]; [reflexivity|]; rewrite E; cbn [bind].
  destruct I as [->|I]; [rewrite (locate_none _ _ N) in E; discriminate|]; rewrite (IH I N); reflexivity.
Qed.

(** ** Shares as shares of variances *)

Section Shares.
  Variable F : Type.
  Variable O : rops F.
  Variable inv : F -> F.
  Hypothesis FT : is_field O inv.
  Let FT' : field_theory (r0 O) (r1 O) (radd O) (rmul O) (rsub O) (ropp O) (rdiv O) inv eq := FT.
  Add Field SharesField : FT'.
  Lemma RT5 : is_ring O. Proof. exact (F_R FT). Qed.

  Lemma tiny_tol : decomp_tol F O = tiny F O.
  Proof using FT. unfold decomp_tol, tiny; f_equal; replace (number O 10) with (ten F O); [reflexivity|]; unfold ten, two; cbn; ring. Qed.
  Lemma perturbed_nudged m a b : perturbed F O m a b = nudged F O (m_sigma m) a b.
  Proof using FT.
    unfold perturbed, nudged, Mat.madd, mscale, mid; rewrite tiny_tol; destruct (Nat.eqb_spec a b) as [->|]; ring.
  Qed.

  (** The model with another covariance matrix. *)
  Definition with_sigma (m : smodel F) (S : mat F) : smodel F := SModel (m_ss m) (m_order m) (m_state m) (m_shocks m) S.
  Lemma with_sigma_rule g m s S : has_rule F g m s -> has_rule F g (with_sigma m S) s.
  Proof using. intros (W & (H1 & H2 & H3 & H4) & E); repeat split; try apply W; try assumption; apply E. Qed.
  Lemma variance_is g m s S X (R : randoms F) y u : has_rule F g m s -> stable F O g -> lawful F O R -> follows F O R g S y u -> stationary F R g y ->
    solution_for F O g S X -> forall t v, v < rn g -> variance F O g m S X v = covariance R (y t v) (y t v).
  Proof using FT.
    intros HR Sb LR Fo St HX t v Hv.
    exact (cov_is F O RT5 g (with_sigma m S) s (with_sigma_rule g m s S HR) Sb R LR y u Fo St X HX t v v Hv Hv).
  Qed.
  (** Only the entries among the shocks matter. *)
  Lemma follows_ext g S S' (R : randoms F) y u : (forall a b, a < rk g -> b < rk g -> S a b = S' a b) -> follows F O R g S y u -> follows F O R g S' y u.
  Proof using. intros E [H1 H2 H3 H4]; constructor; try assumption; intros t l k Hl Hk; rewrite <- E by assumption; apply H2; assumption. Qed.

  Lemma sum_div (n : nat) (f : nat -> F) d : d <> r0 O -> rsum F O n (fun i => rdiv O (f i) d) = rdiv O (rsum F O n f) d.
  Proof using FT. intros N; induction n as [|n IH]; cbn [rsum]; [field; exact N|]; rewrite IH; field; exact N. Qed.
End Shares.

Section Positive.
  Variable F : Type.
  Variable O : rops F.
  Variable inv : F -> F.
  Hypothesis FT : is_field O inv.
  Variable le : F -> F -> Prop.
  Hypothesis OT : is_ordered O le.
  Let FT' : field_theory (r0 O) (r1 O) (radd O) (rmul O) (rsub O) (ropp O) (rdiv O) inv eq := FT.
  Add Field PositiveField : FT'.
  Notation z0 := (r0 O).

  Lemma add_nonneg x y : le z0 x -> le z0 y -> le z0 (radd O x y).
  Proof using OT FT.
    intros Hx Hy; apply (o_trans O le OT _ y); [exact Hy|]; apply (o_add O le OT _ _ y) in Hx; replace (radd O z0 y) with y in Hx by ring; exact Hx.
  Qed.
  Lemma add_zero x y : le z0 x -> le z0 y -> radd O x y = z0 -> x = z0 /\ y = z0.
  Proof using OT FT.
    assert (K : forall x y, le z0 x -> le z0 y -> radd O x y = z0 -> x = z0).
    { intros a b Ha Hb E; apply (o_anti O le OT); [|exact Ha]; apply (o_add O le OT _ _ a) in Hb.
      replace (radd O z0 a) with a in Hb by ring; replace (radd O b a) with (radd O a b) in Hb by ring; rewrite E in Hb; exact Hb. }
    intros Hx Hy E; split; [exact (K x y Hx Hy E)|]; apply (K y x Hy Hx); rewrite <- E; ring.
  Qed.
  Lemma sum_nonneg n f : (forall i, i < n -> le z0 (f i)) -> le z0 (rsum F O n f).
  Proof using OT FT.
    induction n as [|n IH]; intros H; cbn [rsum]; [apply (le_refl F O le OT)|]; apply add_nonneg; [apply IH; intros i Hi; apply H; lia|apply H; lia].
  Qed.
  Lemma sum_zero n f : (forall i, i < n -> le z0 (f i)) -> rsum F O n f = z0 -> forall i, i < n -> f i = z0.
  Proof using OT FT.
    induction n as [|n IH]; intros H E i Hi; [lia|]; cbn [rsum] in E.
    destruct (add_zero _ _ (sum_nonneg n f (fun i Hi => H i (Nat.lt_lt_succ_r _ _ Hi))) (H n (Nat.lt_succ_diag_r n)) E) as (E1 & E2).
    destruct (Nat.eq_dec i n) as [->|N]; [exact E2|]; apply IH; [intros j Hj; apply H; lia|exact E1|lia].
  Qed.
  Lemma one_nonzero : r1 O <> z0.
  Proof using FT. exact (F_1_neq_0 FT). Qed.
  Lemma number_nonneg n : le z0 (number O n).
  Proof using OT FT. induction n as [|n IH]; cbn; [apply (le_refl F O le OT)|apply add_nonneg; [exact IH|exact (one_pos F O inv FT le OT)]]. Qed.
  Lemma number_nonzero n : number O (S n) <> z0.
  Proof using OT FT. cbn; intros E; apply one_nonzero, (add_zero _ _ (number_nonneg n) (one_pos F O inv FT le OT) E). Qed.
  Lemma tiny_pos : le z0 (tiny F O) /\ tiny F O <> z0.
  Proof using OT FT.
    assert (P : forall n, le z0 (Nat.iter n (rmul O (number O 10)) (r1 O)) /\ Nat.iter n (rmul O (number O 10)) (r1 O) <> z0).
    { induction n as [|n (IH1 & IH2)]; cbn [Nat.iter nat_rect]; [split; [exact (one_pos F O inv FT le OT)|exact one_nonzero]|].
      split; [apply (o_mul O le OT); [apply number_nonneg|exact IH1]|]; intros E; apply IH2, (nzd F O inv FT _ _ E), number_nonzero. }
    destruct (P 12) as (P1 & P2); split; [exact (inv_pos F O inv FT le OT _ P1 P2)|].
    unfold tiny; intros E; apply one_nonzero.
    set (x := Nat.iter 12 (rmul O (number O 10)) (r1 O)) in *; transitivity (rmul O x (rdiv O (r1 O) x)); [field; exact P2|]; rewrite E; ring.
  Qed.
  Variable abs : F -> F.
  Hypothesis Ha : (forall x, le z0 x -> abs x = x) /\ (forall x, le x z0 -> abs x = ropp O x).
  Lemma abs_nonneg x : le z0 (abs x).
  Proof using OT FT Ha.
    destruct (o_total O le OT z0 x) as [H|H]; [rewrite (proj1 Ha) by exact H; exact H|]; rewrite (proj2 Ha) by exact H.
    apply (o_add O le OT _ _ (ropp O x)) in H; replace (radd O x (ropp O x)) with z0 in H by ring; replace (radd O z0 (ropp O x)) with (ropp O x) in H by ring; exact H.
  Qed.
  Lemma abs_zero x : abs x = z0 -> x = z0.
  Proof using OT FT Ha.
    intros E; destruct (o_total O le OT z0 x) as [H|H]; [rewrite (proj1 Ha) in E by exact H; exact E|]; rewrite (proj2 Ha) in E by exact H.
    transitivity (ropp O (ropp O x)); [ring|]; rewrite E; ring.
  Qed.
  Lemma div_nonneg x y : le z0 x -> le z0 y -> y <> z0 -> le z0 (rdiv O x y).
  Proof using OT FT.
    intros Hx Hy N; replace (rdiv O x y) with (rmul O x (rdiv O (r1 O) y)) by (field; exact N); apply (o_mul O le OT); [exact Hx|apply (inv_pos F O inv FT le OT); assumption].
  Qed.
End Positive.
