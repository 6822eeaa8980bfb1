(** The solver of the generalised Sylvester equation. *)
From Verif Require Import Base Nd NdProofs Mat MatProofs SimSpec FirstOrder FirstOrderSpec Sylvester SylvesterSpec SylvesterProofs.

Section Solver.
  Variable F : Type.
  Variable O : rops F.
  Hypothesis RT : is_ring O.
  Let RT' : ring_theory (r0 O) (r1 O) (radd O) (rmul O) (rsub O) (ropp O) eq := RT.
  Add Ring SylRing2 : RT'.
  Local Notation "x + y" := (radd O x y).
  Local Notation "x * y" := (rmul O x y).
  Local Notation rsum := (rsum F O).
  Local Notation meq := (meq F).
  Local Notation mul := (mmul F O).
  Local Notation add := (madd F O).
  Local Notation tr := (mtr F).
  Local Notation one := (mid F O).

  (** ** Sums and products *)
  Lemma triple m n (A X B : mat F) i j : Sum F O m (fun k => Sum F O n (fun l => A i k * X k l * B j l)) = mul n (mul m A X) (tr B) i j.
  Proof.
    unfold mmul, mtr; rewrite Sum_rsum.
    rewrite (rsum_ext F O m _ (fun k => rsum n (fun l => A i k * X k l * B j l))) by (intros k _; apply Sum_rsum).
    rewrite (rsum_swap F O RT); apply rsum_ext; intros l _; rewrite <- (rsum_mul_r F O RT); reflexivity.
  Qed.
  Lemma sylvester_mul m n A B C D X i j : sylvester F O m n A B C D X i j = add (mul n (mul m A X) (tr B)) (mul n (mul m C X) (tr D)) i j.
  Proof. unfold sylvester; rewrite !triple; reflexivity. Qed.
  Lemma orthogonal_l n Q : orthogonal F O n Q -> meq n n (mul n (tr Q) Q) one.
  Proof. intros [H _] i j Hi Hj; unfold mmul, mtr, mid; rewrite <- (Sum_rsum F O); apply H; assumption. Qed.
  Lemma orthogonal_r n Q : orthogonal F O n Q -> meq n n (mul n Q (tr Q)) one.
  Proof. intros [_ H] i j Hi Hj; unfold mmul, mtr, mid; rewrite <- (Sum_rsum F O); apply H; assumption. Qed.
  Lemma factor n (Q P Z A : mat F) : (forall i j, i < n -> j < n -> Sum F O n (fun k => Sum F O n (fun l => Q i k * P k l * Z j l)) = A i j) ->
    meq n n A (mul n (mul n Q P) (tr Z)).
  Proof. intros H i j Hi Hj; rewrite <- H by assumption; apply triple. Qed.
  Lemma total_mul m n P S_ T R Y i a : total F O m n P S_ T R Y i a = add (mul n (mul m P Y) (tr R)) (mul n (mul m S_ Y) (tr T)) i a.
  Proof.
    unfold total, part, madd, mmul, mtr; rewrite <- (rsum_add F O RT); apply rsum_ext; intros c _.
    rewrite <- !(rsum_mul_r F O RT), <- (rsum_add F O RT); apply rsum_ext; intros l _; unfold combination; ring.
  Qed.

  (** ** Rotation *)
  Lemma sandwich m n Q1 P Z1 Q2 R Z2 A B Y :
    meq m m A (mul m (mul m Q1 P) (tr Z1)) -> meq n n B (mul n (mul n Q2 R) (tr Z2)) ->
    orthogonal F O m Z1 -> orthogonal F O n Z2 ->
    meq m n (mul n (mul m A (mul m Z1 (mul n Y (tr Z2)))) (tr B)) (mul m Q1 (mul n (mul n (mul m P Y) (tr R)) (tr Q2))).
  Proof.
    intros HA HB O1 O2.
    transitivity (mul n (mul m (mul m (mul m Q1 P) (tr Z1)) (mul m Z1 (mul n Y (tr Z2)))) (tr (mul n (mul n Q2 R) (tr Z2)))).
    { apply (mmul_proper F O m n n); [apply (mmul_proper F O m m n); [exact HA|reflexivity]|apply mtr_proper, HB]. }
    assert (L : meq m n (mul m (mul m (mul m Q1 P) (tr Z1)) (mul m Z1 (mul n Y (tr Z2)))) (mul n (mul m (mul m Q1 P) Y) (tr Z2))).
    { transitivity (mul m (mul m (mul m (mul m Q1 P) (tr Z1)) Z1) (mul n Y (tr Z2))); [symmetry; apply (mmul_assoc F O RT)|].
      transitivity (mul m (mul m (mul m Q1 P) (mul m (tr Z1) Z1)) (mul n Y (tr Z2))).
      { apply (mmul_proper F O m m n); [apply (mmul_assoc F O RT)|reflexivity]. }
      transitivity (mul m (mul m (mul m Q1 P) one) (mul n Y (tr Z2))).
      { apply (mmul_proper F O m m n); [|reflexivity]; apply (mmul_proper F O m m m); [reflexivity|apply orthogonal_l, O1]. }
      transitivity (mul m (mul m Q1 P) (mul n Y (tr Z2))).
      { apply (mmul_proper F O m m n); [apply (mmul_id_r F O RT)|reflexivity]. }
      symmetry; apply (mmul_assoc F O RT). }
    assert (T : meq n n (tr (mul n (mul n Q2 R) (tr Z2))) (mul n Z2 (mul n (tr R) (tr Q2)))).
    { transitivity (mul n (tr (tr Z2)) (tr (mul n Q2 R))); [apply (mtr_mmul F O RT)|].
      apply (mmul_proper F O n n n); [apply mtr_mtr|apply (mtr_mmul F O RT)]. }
    transitivity (mul n (mul n (mul m (mul m Q1 P) Y) (tr Z2)) (mul n Z2 (mul n (tr R) (tr Q2)))).
    { apply (mmul_proper F O m n n); assumption. }
    transitivity (mul n (mul m (mul m Q1 P) Y) (mul n (tr Z2) (mul n Z2 (mul n (tr R) (tr Q2))))); [apply (mmul_assoc F O RT)|].
    transitivity (mul n (mul m (mul m Q1 P) Y) (mul n (tr R) (tr Q2))).
    { apply (mmul_proper F O m n n); [reflexivity|].
      transitivity (mul n (mul n (tr Z2) Z2) (mul n (tr R) (tr Q2))); [symmetry; apply (mmul_assoc F O RT)|].
      transitivity (mul n one (mul n (tr R) (tr Q2))); [apply (mmul_proper F O n n n); [apply orthogonal_l, O2|reflexivity]|apply (mmul_id_l F O RT)]. }
    transitivity (mul n (mul m Q1 (mul m P Y)) (mul n (tr R) (tr Q2))); [apply (mmul_proper F O m n n); [apply (mmul_assoc F O RT)|reflexivity]|].
    transitivity (mul m Q1 (mul n (mul m P Y) (mul n (tr R) (tr Q2)))); [apply (mmul_assoc F O RT)|].
    apply (mmul_proper F O m m n); [reflexivity|symmetry; apply (mmul_assoc F O RT)].
  Qed.
  (** The equation of the rotated unknown. *)
  Lemma rotated_equation m n A B C D P S_ Q1 Z1 T R Q2 Z2 Y :
    real_schur F O m A C P S_ Q1 Z1 -> real_schur F O n D B T R Q2 Z2 ->
    meq m n (add (mul n (mul m A (mul m Z1 (mul n Y (tr Z2)))) (tr B)) (mul n (mul m C (mul m Z1 (mul n Y (tr Z2)))) (tr D)))
      (mul m Q1 (mul n (total F O m n P S_ T R Y) (tr Q2))).
  Proof.
    intros H1 H2; pose proof (s_Z _ _ _ _ _ _ _ _ _ H1) as O1; pose proof (s_Z _ _ _ _ _ _ _ _ _ H2) as O2.
    pose proof (factor _ _ _ _ _ (s_A _ _ _ _ _ _ _ _ _ H1)) as EA; pose proof (factor _ _ _ _ _ (s_B _ _ _ _ _ _ _ _ _ H1)) as EC.
    pose proof (factor _ _ _ _ _ (s_A _ _ _ _ _ _ _ _ _ H2)) as ED; pose proof (factor _ _ _ _ _ (s_B _ _ _ _ _ _ _ _ _ H2)) as EB.
    etransitivity; [apply madd_proper; [apply (sandwich m n _ _ _ _ _ _ _ _ Y EA EB O1 O2)|apply (sandwich m n _ _ _ _ _ _ _ _ Y EC ED O1 O2)]|].
    etransitivity; [symmetry; apply (mmul_add_r F O RT)|].
    apply (mmul_proper F O m m n); [reflexivity|].
    etransitivity; [symmetry; apply (mmul_add_l F O RT)|].
    apply (mmul_proper F O m n n); [|reflexivity]; intros i j Hi Hj; rewrite total_mul; reflexivity.
  Qed.
  Lemma unrotate m n Q1 Q2 E : orthogonal F O m Q1 -> orthogonal F O n Q2 ->
    meq m n (mul m Q1 (mul n (mul m (tr Q1) (mul n E Q2)) (tr Q2))) E.
  Proof.
    intros O1 O2.
    transitivity (mul m Q1 (mul m (tr Q1) (mul n (mul n E Q2) (tr Q2)))).
    { apply (mmul_proper F O m m n); [reflexivity|apply (mmul_assoc F O RT)]. }
    transitivity (mul m (mul m Q1 (tr Q1)) (mul n (mul n E Q2) (tr Q2))); [symmetry; apply (mmul_assoc F O RT)|].
    transitivity (mul m one (mul n (mul n E Q2) (tr Q2))); [apply (mmul_proper F O m m n); [apply orthogonal_r, O1|reflexivity]|].
    transitivity (mul n (mul n E Q2) (tr Q2)); [apply (mmul_id_l F O RT)|].
    transitivity (mul n E (mul n Q2 (tr Q2))); [apply (mmul_assoc F O RT)|].
    transitivity (mul n E one); [apply (mmul_proper F O m n n); [reflexivity|apply orthogonal_r, O2]|apply (mmul_id_r F O RT)].
  Qed.
  Lemma unrotate' m n Z1 Z2 Y : orthogonal F O m Z1 -> orthogonal F O n Z2 ->
    meq m n (mul m (tr Z1) (mul n (mul m Z1 (mul n Y (tr Z2))) Z2)) Y.
  Proof.
    intros O1 O2.
    transitivity (mul m (tr Z1) (mul m Z1 (mul n (mul n Y (tr Z2)) Z2))).
    { apply (mmul_proper F O m m n); [reflexivity|apply (mmul_assoc F O RT)]. }
    transitivity (mul m (mul m (tr Z1) Z1) (mul n (mul n Y (tr Z2)) Z2)); [symmetry; apply (mmul_assoc F O RT)|].
    transitivity (mul m one (mul n (mul n Y (tr Z2)) Z2)); [apply (mmul_proper F O m m n); [apply orthogonal_l, O1|reflexivity]|].
    transitivity (mul n (mul n Y (tr Z2)) Z2); [apply (mmul_id_l F O RT)|].
    transitivity (mul n Y (mul n (tr Z2) Z2)); [apply (mmul_assoc F O RT)|].
    transitivity (mul n Y one); [apply (mmul_proper F O m n n); [reflexivity|apply orthogonal_l, O2]|apply (mmul_id_r F O RT)].
  Qed.

  (** ** The solver *)
  Variable eqb : F -> F -> bool.
  Hypothesis eqb_eq : forall x y, eqb x y = true <-> x = y.
  Variable qz : nat -> mat F -> mat F -> res (mat F * mat F * mat F * mat F).
  Hypothesis Hq : real_schur_routine F O qz.
  Variable solve : nat -> nat -> mat F -> mat F -> res (mat F).
  Hypothesis Hs : linear_routine F O solve.
  Hypothesis He : fails_when_singular F O solve.
  Variable nan : F.
  Definition singular (m n : nat) (A B C D : mat F) : Prop :=
    exists X, (exists i j, i < m /\ j < n /\ X i j <> r0 O) /\ forall i j, i < m -> j < n -> sylvester F O m n A B C D X i j = r0 O.

  (** The general case. *)
  Lemma schur_method_spec m n A B C D E : 0 < n -> (exists p, qz m A C = Ok p) -> (exists p, qz n D B = Ok p) ->
    match schur_method F O eqb qz solve nan m n A B C D E with
    | Ok r => exists X, r = M2 m n X /\ forall i j, i < m -> j < n -> sylvester F O m n A B C D X i j = E i j
    | Err _ => singular m n A B C D
    end.
  Proof.
    intros Hn ([[[P S_] Q1] Z1] & E1) ([[[T R] Q2] Z2] & E2).
    pose proof (Hq _ _ _ _ _ _ _ E1) as H1; pose proof (Hq _ _ _ _ _ _ _ E2) as H2.
    unfold schur_method; rewrite (proj2 (Nat.eqb_neq n 0)) by lia; rewrite E1, E2; cbn [bind].
    set (f := mul m (tr Q1) (mul n E Q2)).
    pose proof (columns_all F O RT eqb eqb_eq solve Hs He m n P S_ T R (s_BB _ _ _ _ _ _ _ _ _ H2) (s_AA _ _ _ _ _ _ _ _ _ H2) (s_blocks _ _ _ _ _ _ _ _ _ H2) f (fun _ _ => nan) Hn) as K.
    destruct (columns _ _ _ _ _ _ _ _ _ _ _ _ _ _) as [Y|e]; cbn [bind].
    - eexists; split; [reflexivity|]; intros i j Hi Hj; rewrite sylvester_mul.
      rewrite (rotated_equation m n A B C D P S_ Q1 Z1 T R Q2 Z2 Y H1 H2 i j Hi Hj).
      transitivity (mul m Q1 (mul n f (tr Q2)) i j); [|apply (unrotate m n Q1 Q2 E (s_Q _ _ _ _ _ _ _ _ _ H1) (s_Q _ _ _ _ _ _ _ _ _ H2) i j Hi Hj)].
      apply (mmul_proper F O m m n); try assumption; [reflexivity|]; apply (mmul_proper F O m n n); [|reflexivity]; intros a b Ha Hb; apply K; assumption.
    - destruct K as (Y & (i0 & j0 & Hi0 & Hj0 & N) & K).
      set (X := mul m Z1 (mul n Y (tr Z2))).
      assert (KX : forall i j, i < m -> j < n -> sylvester F O m n A B C D X i j = r0 O).
      { intros i j Hi Hj; rewrite sylvester_mul; unfold X; rewrite (rotated_equation m n A B C D P S_ Q1 Z1 T R Q2 Z2 Y H1 H2 i j Hi Hj).
        apply (rsum_all_zero F O RT); intros a Ha; unfold mmul at 1; rewrite (rsum_all_zero F O RT n); [ring|].
        intros b Hb; rewrite K by assumption; ring. }
      assert (ex : (exists i j, i < m /\ j < n /\ X i j <> r0 O)); [|exists X; split; assumption].
      assert (D2 : forall r c (G : mat F), (exists i j, i < r /\ j < c /\ G i j <> r0 O) \/ (forall i j, i < r -> j < c -> G i j = r0 O)).
      { intros r c G.
        assert (V : forall c (v : nat -> F), (exists j, j < c /\ v j <> r0 O) \/ (forall j, j < c -> v j = r0 O)).
        { induction c0 as [|c0 IH]; intros v; [right; intros j Hj; lia|]; destruct (IH v) as [(j & Hj & Nj)|Z]; [left; exists j; split; [lia|exact Nj]|].
          destruct (eqb (v c0) (r0 O)) eqn:Ev; [right; intros j Hj; destruct (Nat.eq_dec j c0) as [->|]; [apply eqb_eq, Ev|apply Z; lia]|].
          left; exists c0; split; [lia|]; intros Ec; apply eqb_eq in Ec; congruence. }
        induction r as [|r IH]; [right; intros i j Hi; lia|]; destruct IH as [(i & j & Hi & Hj & Nij)|Z]; [left; exists i, j; repeat split; try assumption; lia|].
        destruct (V c (G r)) as [(j & Hj & Nj)|Zr]; [left; exists r, j; repeat split; try assumption; lia|].
        right; intros i j Hi Hj; destruct (Nat.eq_dec i r) as [->|]; [apply Zr, Hj|apply Z; lia]. }
      destruct (D2 m n X) as [G|G]; [exact G|exfalso; apply N].
      rewrite <- (unrotate' m n Z1 Z2 Y (s_Z _ _ _ _ _ _ _ _ _ H1) (s_Z _ _ _ _ _ _ _ _ _ H2) i0 j0 Hi0 Hj0).
      apply (rsum_all_zero F O RT); intros a Ha; unfold mmul at 1; rewrite (rsum_all_zero F O RT n); [ring|].
      intros b Hb; fold X; rewrite G by assumption; ring.
  Qed.

  (** Reading an array as a matrix. *)
  Lemma ensure2_sized a r c : sized F a r c -> ensure2 F a = M2 r c (entries F a).
  Proof. destruct a; cbn [sized ensure2 entries]; intros [-> ->]; reflexivity. Qed.
  Lemma sized_size a r c : sized F a r c -> nsize F a = (r * c)%nat.
  Proof. destruct a; cbn [sized nsize]; intros [-> ->]; lia. Qed.
  Lemma reshape_ok E r c X : sized F E r c ->
    exists Y, reshape_as F E (M2 r c X) = Ok Y /\ shape F Y = shape F E /\ meq r c (entries F Y) X.
  Proof.
    intros H; unfold reshape_as; rewrite (sized_size _ _ _ H); cbn [nsize]; rewrite Nat.eqb_refl; cbn [negb].
    destruct E as [x|k v|r' c' v]; cbn [sized] in H; destruct H as [-> ->].
    - eexists; split; [reflexivity|]; split; [reflexivity|]; intros i j Hi Hj; replace i with 0 by lia; replace j with 0 by lia; reflexivity.
    - eexists; split; [reflexivity|]; split; [reflexivity|]; intros i j Hi Hj; cbn [entries flat]; rewrite Nat.div_1_r, Nat.mod_1_r; replace j with 0 by lia; reflexivity.
    - eexists; split; [reflexivity|]; split; [reflexivity|]; intros i j Hi Hj; cbn [entries flat].
      rewrite Nat.div_add_l by lia; rewrite (Nat.div_small j) by exact Hj; rewrite Nat.add_0_r; f_equal.
      rewrite Nat.add_comm, Nat.mod_add by lia; apply Nat.mod_small, Hj.
  Qed.
  Lemma sized_unique a r c r' c' : sized F a r c -> sized F a r' c' -> r = r' /\ c = c'.
  Proof. destruct a; cbn [sized]; intros [-> ->] [-> ->]; split; reflexivity. Qed.
  Lemma sized_shape a b r c : shape F a = shape F b -> sized F b r c -> sized F a r c.
  Proof.
    destruct a, b; cbn [shape sized]; intros H; try discriminate H; [tauto| |]; injection H; intros; subst; assumption.
  Qed.
  Lemma sylvester_ext m n A B C D X X' i j : i < m -> j < n -> meq m n X X' -> sylvester F O m n A B C D X i j = sylvester F O m n A B C D X' i j.
  Proof.
    intros Hi Hj EX; unfold sylvester; rewrite !Sum_rsum; f_equal; apply rsum_ext; intros k Hk; rewrite !Sum_rsum; apply rsum_ext; intros l Hl;
    rewrite EX by assumption; reflexivity.
  Qed.
  Lemma sylvester_sub m n A B C D X Y i j :
    sylvester F O m n A B C D (fun a b => rsub O (X a b) (Y a b)) i j = rsub O (sylvester F O m n A B C D X i j) (sylvester F O m n A B C D Y i j).
  Proof.
    rewrite !sylvester_mul; unfold madd, mmul, mtr.
    assert (H : forall P Q : mat F, rsum n (fun k => rsum m (fun l => P i l * rsub O (X l k) (Y l k)) * Q j k) =
      rsub O (rsum n (fun k => rsum m (fun l => P i l * X l k) * Q j k)) (rsum n (fun k => rsum m (fun l => P i l * Y l k) * Q j k))).
    { intros P Q; rewrite <- (rsum_sub F O RT); apply rsum_ext; intros k _.
      transitivity (rsub O (rsum m (fun l => P i l * X l k)) (rsum m (fun l => P i l * Y l k)) * Q j k); [|ring].
      f_equal; rewrite <- (rsum_sub F O RT); apply rsum_ext; intros l _; ring. }
    rewrite !H; ring.
  Qed.
  Lemma cancel x : rsub O x x = r0 O.
  Proof. ring. Qed.
  Lemma sub_zero x y : rsub O x y = r0 O -> x = y.
  Proof. intros H; replace x with (rsub O x y + y) by ring; rewrite H; ring. Qed.
  Lemma ensure2_some a : exists r c f, ensure2 F a = M2 r c f /\ sized F a r c.
  Proof. destruct a; cbn [ensure2 sized]; repeat eexists. Qed.
  Lemma one_row n A B C D X i j : i < 1 -> sylvester F O 1 n A B C D X i j = rsum n (fun l => (A 0 0 * B j l + C 0 0 * D j l) * X 0 l).
  Proof.
    intros Hi; replace i with 0 by lia; unfold sylvester; rewrite !Sum_rsum, !(rsum_one F O RT), !Sum_rsum, <- (rsum_add F O RT).
    apply rsum_ext; intros l _; ring.
  Qed.
  Lemma one_col m A B C D X i j : j < 1 -> sylvester F O m 1 A B C D X i j = rsum m (fun k => (B 0 0 * A i k + D 0 0 * C i k) * X k 0).
  Proof.
    intros Hj; replace j with 0 by lia; unfold sylvester; rewrite !Sum_rsum, <- (rsum_add F O RT).
    apply rsum_ext; intros l _; rewrite !Sum_rsum, !(rsum_one F O RT); ring.
  Qed.
  (** A product of a matrix of one row and one column with a square matrix. *)
  Lemma scaled n (a b : mat F) : nmul F O (M2 1 1 a) (M2 n n b) = Ok (M2 n n (fun i j => a (at_ 1 i) (at_ 1 j) * b (at_ n i) (at_ n j))).
  Proof.
    unfold nmul, elementwise; cbn [rows cols entry]; unfold axis.
    destruct (Nat.eqb_spec 1 n) as [<-|N]; [reflexivity|]; cbn [Nat.eqb]; reflexivity.
  Qed.
  Lemma added n (a b : mat F) : nadd F O (M2 n n a) (M2 n n b) = Ok (M2 n n (fun i j => a (at_ n i) (at_ n j) + b (at_ n i) (at_ n j))).
  Proof. unfold nadd, elementwise; cbn [rows cols entry]; unfold axis; rewrite Nat.eqb_refl; reflexivity. Qed.
  Lemma at_id n i : i < n -> at_ n i = i.
  Proof. unfold at_; destruct (Nat.eqb_spec n 1); lia. Qed.

  Theorem sylvester_spec m n A B C D E :
    0 < m -> 0 < n -> sized F A m m -> sized F B n n -> sized F C m m -> sized F D n n -> sized F E m n ->
    (1 < m -> 1 < n -> (exists p, qz m (entries F A) (entries F C) = Ok p) /\ (exists p, qz n (entries F D) (entries F B) = Ok p)) ->
    match generalized_sylvester F O eqb qz solve nan A B C D E with
    | Ok X => shape F X = shape F E /\
        forall i j, i < m -> j < n -> sylvester F O m n (entries F A) (entries F B) (entries F C) (entries F D) (entries F X) i j = entries F E i j
    | Err _ => singular m n (entries F A) (entries F B) (entries F C) (entries F D)
    end.
  Proof.
    intros Hm Hn SA SB SC SD SE Q; unfold generalized_sylvester.
    rewrite (ensure2_sized _ _ _ SA), (ensure2_sized _ _ _ SB), (ensure2_sized _ _ _ SC), (ensure2_sized _ _ _ SD), (ensure2_sized _ _ _ SE).
    rewrite !Nat.eqb_refl; cbn [andb negb orb].
    set (a := entries F A) in *; set (b := entries F B) in *; set (c := entries F C) in *; set (d := entries F D) in *; set (e := entries F E) in *.
    destruct (Nat.eqb_spec m 1) as [->|N1].
    - rewrite !scaled; cbn [bind]; rewrite added; cbn [bind ntrans nsolve]; rewrite !Nat.eqb_refl; cbn [negb].
      set (g := fun i j : nat => _ + _).
      assert (Eg : forall j l, j < n -> l < n -> g j l = a 0 0 * b j l + c 0 0 * d j l).
      { intros j l Hj Hl; unfold g; rewrite !(at_id n j Hj), !(at_id n l Hl); reflexivity. }
      destruct (solve n 1 g _) as [X|er] eqn:Ex; cbn [bind].
      + cbn [ntrans]; destruct (reshape_ok E 1 n (fun i j => X j i) SE) as (Y & E1 & E2 & E3).
        rewrite E1; split; [exact E2|]; intros i j Hi Hj.
        rewrite (sylvester_ext 1 n a b c d _ _ i j Hi Hj E3), one_row by exact Hi.
        pose proof (Hs _ _ _ _ _ Ex j i Hj Hi) as K; rewrite Sum_rsum in K; cbv beta in K; rewrite <- K.
        apply rsum_ext; intros l Hl; rewrite Eg by assumption; replace i with 0 by lia; reflexivity.
      + destruct (He _ _ _ _ _ Ex) as (v & (i0 & Hi0 & Nv) & K).
        exists (fun _ j => v j); split; [exists 0, i0; repeat split; try assumption; lia|].
        intros i j Hi Hj; rewrite one_row by exact Hi; rewrite <- (K j Hj); apply rsum_ext; intros l Hl; rewrite Eg by assumption; reflexivity.
    - destruct (Nat.eqb_spec n 1) as [->|N2].
      + rewrite !scaled; cbn [bind]; rewrite added; cbn [bind ntrans nsolve]; rewrite !Nat.eqb_refl; cbn [negb].
        set (g := fun i j : nat => _ + _).
        assert (Eg : forall i k, i < m -> k < m -> g i k = b 0 0 * a i k + d 0 0 * c i k).
        { intros i k Hi Hk; unfold g; rewrite !(at_id m i Hi), !(at_id m k Hk); reflexivity. }
        destruct (solve m 1 g _) as [X|er] eqn:Ex; cbn [bind].
        * destruct (reshape_ok E m 1 X SE) as (Y & E1 & E2 & E3).
          rewrite E1; split; [exact E2|]; intros i j Hi Hj.
          rewrite (sylvester_ext m 1 a b c d _ _ i j Hi Hj E3), one_col by exact Hj.
          pose proof (Hs _ _ _ _ _ Ex i j Hi Hj) as K; rewrite Sum_rsum in K; cbv beta in K; rewrite <- K.
          apply rsum_ext; intros l Hl; rewrite Eg by assumption; replace j with 0 by lia; reflexivity.
        * destruct (He _ _ _ _ _ Ex) as (v & (i0 & Hi0 & Nv) & K).
          exists (fun i _ => v i); split; [exists i0, 0; repeat split; try assumption; lia|].
          intros i j Hi Hj; rewrite one_col by exact Hj; rewrite <- (K i Hi); apply rsum_ext; intros l Hl; rewrite Eg by assumption; reflexivity.
      + destruct (Q ltac:(lia) ltac:(lia)) as [Q1 Q2].
        pose proof (schur_method_spec m n a b c d e Hn Q1 Q2) as G.
        destruct (schur_method _ _ _ _ _ _ _ _ _ _ _ _ _) as [r|er]; [|exact G]; destruct G as (X & -> & G); split; [|exact G].
        destruct E as [x|k v|r' c' v]; cbn [sized] in SE; destruct SE as [-> ->]; [lia|lia|reflexivity].
  Qed.
  (** An array that is returned needed both factorisations, or neither. *)
  Lemma sylvester_factors m n A B C D E X :
    sized F A m m -> sized F B n n -> sized F C m m -> sized F D n n -> sized F E m n ->
    generalized_sylvester F O eqb qz solve nan A B C D E = Ok X -> 1 < m -> 1 < n ->
    (exists p, qz m (entries F A) (entries F C) = Ok p) /\ (exists p, qz n (entries F D) (entries F B) = Ok p).
  Proof.
    intros SA SB SC SD SE; unfold generalized_sylvester.
    rewrite (ensure2_sized _ _ _ SA), (ensure2_sized _ _ _ SB), (ensure2_sized _ _ _ SC), (ensure2_sized _ _ _ SD), (ensure2_sized _ _ _ SE).
    rewrite !Nat.eqb_refl; cbn [andb negb orb]; intros H Hm Hn; revert H.
    rewrite (proj2 (Nat.eqb_neq m 1)), (proj2 (Nat.eqb_neq n 1)) by lia.
    unfold schur_method; rewrite (proj2 (Nat.eqb_neq n 0)) by lia; intros H.
    apply bind_ok in H as (p & E1 & H); apply bind_ok in H as (p' & E2 & _); split; [exists p|exists p']; assumption.
  Qed.

  (** ** Only the routines fail *)
  Lemma sylvester_fails m n A B C D E e :
    0 < n -> sized F A m m -> sized F B n n -> sized F C m m -> sized F D n n -> sized F E m n ->
    generalized_sylvester F O eqb qz solve nan A B C D E = Err e ->
    (exists q P S_, qz q P S_ = Err e) \/ (exists q k P S_, solve q k P S_ = Err e).
  Proof using eqb_eq Hq.
    intros Hn SA SB SC SD SE; unfold generalized_sylvester.
    rewrite (ensure2_sized _ _ _ SA), (ensure2_sized _ _ _ SB), (ensure2_sized _ _ _ SC), (ensure2_sized _ _ _ SD), (ensure2_sized _ _ _ SE).
    rewrite !Nat.eqb_refl; cbn [andb negb orb].
    destruct (Nat.eqb_spec m 1) as [->|N1].
    - rewrite !scaled; cbn [bind]; rewrite added; cbn [bind ntrans nsolve]; rewrite !Nat.eqb_refl; cbn [negb].
      destruct (solve _ _ _ _) as [X|e'] eqn:Es; cbn [bind]; [|intros H; injection H as ->; right; do 4 eexists; exact Es].
      cbn [ntrans]; destruct (reshape_ok E 1 n (fun i j => X j i) SE) as (Y & -> & _); discriminate.
    - destruct (Nat.eqb_spec n 1) as [->|N2].
      + rewrite !scaled; cbn [bind]; rewrite added; cbn [bind ntrans nsolve]; rewrite !Nat.eqb_refl; cbn [negb].
        destruct (solve _ _ _ _) as [X|e'] eqn:Es; cbn [bind]; [|intros H; injection H as ->; right; do 4 eexists; exact Es].
        destruct (reshape_ok E m 1 X SE) as (Y & -> & _); discriminate.
      + unfold schur_method; rewrite (proj2 (Nat.eqb_neq n 0)) by lia.
        destruct (qz m _ _) as [[[[P S_] Q1] Z1]|e1] eqn:E1; cbn [bind]; [|intros H; injection H as ->; left; do 3 eexists; exact E1].
        destruct (qz n _ _) as [[[[T R] Q2] Z2]|e2] eqn:E2; cbn [bind]; [|intros H; injection H as ->; left; do 3 eexists; exact E2].
        pose proof (Hq _ _ _ _ _ _ _ E2) as H2.
        destruct (columns _ _ _ _ _ _ _ _ _ _ _ _ _ _) as [Y|e3] eqn:E3; cbn [bind]; [discriminate|]; intros H; injection H as ->.
        right; exact (columns_all_fail F O eqb eqb_eq solve m n P S_ T R (s_BB _ _ _ _ _ _ _ _ _ H2) (s_AA _ _ _ _ _ _ _ _ _ H2) (s_blocks _ _ _ _ _ _ _ _ _ H2) _ _ _ Hn E3).
  Qed.

  (** ** The solver fails on every singular equation *)
  Hypothesis Hu : refuses_singular F O solve.
  Lemma schur_method_refuses m n A B C D E r : 0 < n -> schur_method F O eqb qz solve nan m n A B C D E = Ok r -> nonsingular F O m n A B C D.
  Proof.
    intros Hn; unfold schur_method; rewrite (proj2 (Nat.eqb_neq n 0)) by lia; intros H.
    apply bind_ok in H as ([[[P S_] Q1] Z1] & E1 & H); apply bind_ok in H as ([[[T R] Q2] Z2] & E2 & H).
    apply bind_ok in H as (Y & EY & _).
    pose proof (Hq _ _ _ _ _ _ _ E1) as H1; pose proof (Hq _ _ _ _ _ _ _ E2) as H2.
    intros X HX; set (V := mul m (tr Z1) (mul n X Z2)).
    pose proof (unrotate m n Z1 Z2 X (s_Z _ _ _ _ _ _ _ _ _ H1) (s_Z _ _ _ _ _ _ _ _ _ H2)) as EX; fold V in EX.
    assert (K : forall i j, i < m -> j < n -> V i j = r0 O).
    { apply (columns_all_unique F O RT eqb eqb_eq solve m n P S_ T R (s_BB _ _ _ _ _ _ _ _ _ H2) (s_AA _ _ _ _ _ _ _ _ _ H2) (s_blocks _ _ _ _ _ _ _ _ _ H2) _ Hu _ _ Hn EY).
      intros i j Hi Hj.
      rewrite <- (unrotate' m n Q1 Q2 _ (s_Q _ _ _ _ _ _ _ _ _ H1) (s_Q _ _ _ _ _ _ _ _ _ H2) i j Hi Hj).
      apply (rsum_all_zero F O RT); intros a Ha; unfold mmul at 1; rewrite (rsum_all_zero F O RT n); [ring|].
      intros b Hb; rewrite <- (rotated_equation m n A B C D P S_ Q1 Z1 T R Q2 Z2 V H1 H2 a b Ha Hb).
      rewrite <- sylvester_mul, (sylvester_ext m n A B C D _ X a b Ha Hb EX), HX by assumption; ring. }
    intros i j Hi Hj; rewrite <- (EX i j Hi Hj).
    apply (rsum_all_zero F O RT); intros a Ha; unfold mmul at 1; rewrite (rsum_all_zero F O RT n); [ring|].
    intros b Hb; rewrite K by assumption; ring.
  Qed.
  Theorem sylvester_refuses m n A B C D E X :
    0 < m -> 0 < n -> sized F A m m -> sized F B n n -> sized F C m m -> sized F D n n -> sized F E m n ->
    generalized_sylvester F O eqb qz solve nan A B C D E = Ok X -> nonsingular F O m n (entries F A) (entries F B) (entries F C) (entries F D).
  Proof.
    intros Hm Hn SA SB SC SD SE; unfold generalized_sylvester.
    rewrite (ensure2_sized _ _ _ SA), (ensure2_sized _ _ _ SB), (ensure2_sized _ _ _ SC), (ensure2_sized _ _ _ SD), (ensure2_sized _ _ _ SE).
    rewrite !Nat.eqb_refl; cbn [andb negb orb].
    set (a := entries F A) in *; set (b := entries F B) in *; set (c := entries F C) in *; set (d := entries F D) in *; set (e := entries F E) in *.
    destruct (Nat.eqb_spec m 1) as [->|N1].
    - rewrite !scaled; cbn [bind]; rewrite added; cbn [bind ntrans nsolve]; rewrite !Nat.eqb_refl; cbn [negb].
      set (g := fun i j : nat => _ + _).
      assert (Eg : forall j l, j < n -> l < n -> g j l = a 0 0 * b j l + c 0 0 * d j l).
      { intros j l Hj Hl; unfold g; rewrite !(at_id n j Hj), !(at_id n l Hl); reflexivity. }
      intros H; apply bind_ok in H as (x & H & _); apply bind_ok in H as (y & H & _).
      intros V HV i j Hi Hj; replace i with 0 by lia; apply (Hu _ _ _ _ _ H (V 0)); [|exact Hj].
      intros i' Hi'; rewrite <- (HV 0 i' ltac:(lia) Hi'), one_row by lia; apply rsum_ext; intros l Hl; rewrite Eg by assumption; reflexivity.
    - destruct (Nat.eqb_spec n 1) as [->|N2].
      + rewrite !scaled; cbn [bind]; rewrite added; cbn [bind ntrans nsolve]; rewrite !Nat.eqb_refl; cbn [negb].
        set (g := fun i j : nat => _ + _).
        assert (Eg : forall i k, i < m -> k < m -> g i k = b 0 0 * a i k + d 0 0 * c i k).
        { intros i k Hi Hk; unfold g; rewrite !(at_id m i Hi), !(at_id m k Hk); reflexivity. }
        intros H; apply bind_ok in H as (x & H & _); apply bind_ok in H as (y & H & _).
        intros V HV i j Hi Hj; replace j with 0 by lia; apply (Hu _ _ _ _ _ H (fun i => V i 0)); [|exact Hi].
        intros i' Hi'; rewrite <- (HV i' 0 Hi' ltac:(lia)), one_col by lia; apply rsum_ext; intros l Hl; rewrite Eg by assumption; reflexivity.
      + intros H; apply (schur_method_refuses m n a b c d e X Hn H).
  Qed.
End Solver.
