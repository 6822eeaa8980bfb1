(** Sequences that do not explode, and the blocks of a quasi-triangular system. *)
From Verif Require Import Base Nd NdProofs Mat MatProofs IndexingSpec SimSpec OrderProofs FirstOrder FirstOrderSpec StableSpec.
From Coq Require Import Ring Field.

Section Growth.
  Variable F : Type.
  Variable O : rops F.
  Variable finv : F -> F.
  Variable FT : is_field O finv.
  Variable le : F -> F -> Prop.
  Hypothesis OR : is_ordered O le.
  Hypothesis dec : forall x y : F, x = y \/ x <> y.
  Let FT' : field_theory (r0 O) (r1 O) (radd O) (rmul O) (rsub O) (ropp O) (rdiv O) finv eq := FT.
  Add Field FfieldSt : FT'.
  Let RT : is_ring O := F_R FT'.
  Notation rsum := (Nd.rsum F O).
  Notation "0" := (r0 O). Notation "1" := (r1 O).
  Infix "+" := (radd O). Infix "*" := (rmul O). Infix "-" := (rsub O). Infix "/" := (rdiv O).
  Infix "<=" := le.
  Notation refl := (le_refl F O le OR).
  Notation trans := (o_trans _ _ OR).

  Lemma ge0 x y : 0 <= y - x -> x <= y.
  Proof using FT OR. apply (proj2 (le_sub F O finv FT le OR x y)). Qed.
  Lemma sub0 x y : x <= y -> 0 <= y - x.
  Proof using FT OR. apply (proj1 (le_sub F O finv FT le OR x y)). Qed.
  Lemma not_le_le x y : ~ x <= y -> y <= x.
  Proof using OR. intros H; destruct (o_total _ _ OR y x); [assumption|contradiction]. Qed.
  Lemma add_mono x y z w : x <= y -> z <= w -> x + z <= y + w.
  Proof using FT OR.
    intros H G; apply ge0; replace (y + w - (x + z)) with ((y - x) + (w - z)) by ring.
    apply (add_nonneg F O finv FT le OR); apply sub0; assumption.
  Qed.
  Lemma mul_nonneg_le c x y : 0 <= c -> x <= y -> c * x <= c * y.
  Proof using FT OR.
    intros Hc H; apply ge0; replace (c * y - c * x) with (c * (y - x)) by ring.
    apply (o_mul _ _ OR); [exact Hc|apply sub0, H].
  Qed.
  Lemma sq_zero x : x * x = 0 -> x = 0.
  Proof using FT dec. intros H; destruct (dec x 0) as [E|E]; [exact E|]; transitivity (x * x / x); [field; exact E|rewrite H; field; exact E]. Qed.
  Lemma mul_zero x y : x <> 0 -> x * y = 0 -> y = 0.
  Proof using FT. intros E H; transitivity (x * y / x); [field; exact E|rewrite H; field; exact E]. Qed.
  Lemma sum_sq_zero x y : x * x + y * y = 0 -> x = 0 /\ y = 0.
  Proof using FT OR dec.
    intros H; assert (A : x * x = 0).
    { apply (o_anti _ _ OR); [|apply (sq_nonneg F O finv FT le OR)]; apply ge0; replace (0 - x * x) with (y * y) by (transitivity (x * x + y * y - x * x); [ring|rewrite H; ring]); apply (sq_nonneg F O finv FT le OR). }
    split; apply sq_zero; [exact A|]; transitivity (x * x + y * y - x * x); [ring|rewrite H, A; ring].
  Qed.
  Lemma two_nonzero : 1 + 1 <> 0.
  Proof using FT OR. pose proof (number_pos F O finv FT le OR 2 ltac:(discriminate)) as H; cbn in H; intros E; apply H; transitivity (1 + 1); [ring|exact E]. Qed.

  (** ** Bounded sequences, by their squares *)

  Definition bnd (x : nat -> F) : Prop := exists B, forall t, x t * x t <= B.
  Lemma bnd_ext x y : (forall t, x t = y t) -> bnd x -> bnd y.
  Proof. intros E [B H]; exists B; intros t; rewrite <- E; apply H. Qed.
  Lemma bnd_const c : bnd (fun _ => c).
  Proof using OR. exists (c * c); intros _; apply refl. Qed.
  Lemma bnd_add x y : bnd x -> bnd y -> bnd (fun t => x t + y t).
  Proof using FT OR.
    intros [B H] [C G]; exists ((B + B) + (C + C)); intros t.
    apply (trans _ ((x t * x t + x t * x t) + (y t * y t + y t * y t))).
    - apply ge0.
      replace (x t * x t + x t * x t + (y t * y t + y t * y t) - (x t + y t) * (x t + y t)) with ((x t - y t) * (x t - y t)) by ring.
      apply (sq_nonneg F O finv FT le OR).
    - repeat apply add_mono; auto.
  Qed.
  Lemma bnd_mul x y : bnd x -> bnd y -> bnd (fun t => x t * y t).
  Proof using FT OR.
    intros [B H] [C G]; exists (B * C); intros t; replace (x t * y t * (x t * y t)) with ((x t * x t) * (y t * y t)) by ring.
    apply (mul_mono F O finv FT le OR); auto; apply (sq_nonneg F O finv FT le OR).
  Qed.
  Lemma bnd_scale c x : bnd x -> bnd (fun t => c * x t).
  Proof using FT OR. intros H; apply (bnd_mul (fun _ => c)); [apply bnd_const|exact H]. Qed.
  Lemma bnd_sum n (x : nat -> nat -> F) : (forall j, j < n -> bnd (fun t => x t j)) -> bnd (fun t => rsum n (fun j => x t j)).
  Proof using FT OR.
    induction n as [|n IH]; intros H; cbn [Nd.rsum]; [apply bnd_const|].
    apply bnd_add; [apply IH; intros j Hj; apply H; lia|apply H; lia].
  Qed.
  Lemma bnd_shift x : bnd x -> bnd (fun t => x (S t)).
  Proof. intros [B H]; exists B; intros t; apply H. Qed.
  Lemma bnd_of B (x : nat -> F) : (forall t, ropp O B <= x t /\ x t <= B) -> bnd x.
  Proof using FT OR.
    intros H; exists (B * B); intros t; destruct (H t) as [H1 H2]; apply sub0 in H1, H2; apply ge0.
    replace (B * B - x t * x t) with ((B - x t) * (x t - ropp O B)) by ring; apply (o_mul _ _ OR); assumption.
  Qed.
  (** Back: a number is between minus and plus one more than its square. *)
  Lemma of_bnd x : bnd x -> exists B, forall t, ropp O B <= x t /\ x t <= B.
  Proof using FT OR.
    intros [C H]; exists (C + 1); intros t.
    assert (K : forall z, z * z <= C -> z <= C + 1).
    { intros z Hz; apply (trans _ (z * z + 1)); [|apply add_mono; [exact Hz|apply refl]].
      destruct (o_total _ _ OR z 1) as [G|G].
      - apply (trans _ 1); [exact G|]; apply ge0; replace (z * z + 1 - 1) with (z * z) by ring; apply (sq_nonneg F O finv FT le OR).
      - apply ge0; apply sub0 in G.
        replace (z * z + 1 - z) with ((z - 1) * (z - 1) + ((z - 1) + 1)) by ring.
        apply (add_nonneg F O finv FT le OR); [apply (sq_nonneg F O finv FT le OR)|]; apply (add_nonneg F O finv FT le OR); [exact G|apply (one_nonneg F O finv FT le OR)]. }
    split; [|apply K, H].
    apply ge0; replace (x t - ropp O (C + 1)) with (C + 1 - (ropp O (x t))) by ring; apply sub0, K.
    replace (ropp O (x t) * ropp O (x t)) with (x t * x t) by ring; apply H.
  Qed.

  (** ** What grows by a factor above one is not bounded *)

  Lemma growth (AR : archimedean F O le) (q : nat -> F) d C : (forall t, q (S t) = d * q t) -> (forall t, 0 <= q t) -> (forall t, q t <= C) -> ~ d <= 1 -> forall t, q t = 0.
  Proof using FT OR dec.
    intros Hq Hp Hc Hd.
    assert (D1 : 0 <= d - 1) by (apply sub0, not_le_le, Hd).
    assert (Z : q 0%nat = 0).
    { destruct (dec (q 0%nat) 0) as [E|E]; [exact E|exfalso].
      set (e := (d - 1) * q 0%nat).
      assert (E0 : e <> 0).
      { intros H; apply Hd; apply (mul_zero (q 0%nat) (d - 1) E) in H || (assert (H' : q 0%nat * (d - 1) = 0) by (rewrite <- H; unfold e; ring); apply (mul_zero _ _ E) in H').
        all: replace d with (d - 1 + 1) by ring; rewrite H' || rewrite H; replace (0 + 1) with 1 by ring; apply refl. }
      assert (Ep : 0 <= e) by (apply (o_mul _ _ OR); [exact D1|apply Hp]).
      assert (L : forall t, q 0%nat + number O t * e <= q t).
      { induction t as [|t IH]; [cbn [number]; replace (q 0%nat + 0 * e) with (q 0%nat) by ring; apply refl|].
        rewrite Hq; cbn [number]; replace (d * q t) with (q t + (d - 1) * q t) by ring.
        replace (q 0%nat + (number O t + 1) * e) with ((q 0%nat + number O t * e) + e) by ring; apply add_mono; [exact IH|].
        apply mul_nonneg_le; [exact D1|]; apply (trans _ (q 0%nat + number O t * e)); [|exact IH].
        apply ge0; replace (q 0%nat + number O t * e - q 0%nat) with (number O t * e) by ring.
        apply (o_mul _ _ OR); [apply (number_nonneg F O finv FT le OR)|exact Ep]. }
      destruct (AR ((C + 1) / e)) as [n Hn].
      assert (B : C + 1 <= number O n * e).
      { replace (C + 1) with (e * ((C + 1) / e)) by (field; exact E0); replace (number O n * e) with (e * number O n) by ring; apply mul_nonneg_le; assumption. }
      assert (K : number O n * e <= C).
      { apply (trans _ (q 0%nat + number O n * e)); [|apply (trans _ (q n)); [apply L|apply Hc]].
        apply ge0; replace (q 0%nat + number O n * e - number O n * e) with (q 0%nat) by ring; apply Hp. }
      assert (M : 1 <= 0).
      { apply ge0; replace (0 - 1) with (C - (C + 1)) by ring; apply sub0; apply (trans _ _ _ B K). }
      apply (F_1_neq_0 FT'); apply (o_anti _ _ OR); [exact M|apply (one_nonneg F O finv FT le OR)]. }
    induction t as [|t IH]; [exact Z|rewrite Hq, IH; ring].
  Qed.

  (** ** What shrinks by a factor below one stays bounded, whatever bounded amounts are added *)

  Lemma shrink (X Y x1 y1 c d : nat -> F) k : ~ 1 <= k -> 0 <= k ->
    (forall t, X (S t) = x1 t + c t) -> (forall t, Y (S t) = y1 t + d t) ->
    (forall t, x1 t * x1 t + y1 t * y1 t = k * (X t * X t + Y t * Y t)) -> bnd c -> bnd d -> bnd X /\ bnd Y.
  Proof using FT OR dec.
    intros Hk K0 HX HY H1 [C Hc] [D Hd].
    assert (T2 : 1 + 1 <> 0) by exact two_nonzero.
    assert (N1 : 0 <= 1 - k) by (apply sub0, not_le_le, Hk).
    assert (N0 : 1 - k <> 0).
    { intros E; apply Hk; replace 1 with (1 - k + k) by ring; rewrite E; replace (0 + k) with k by ring; apply refl. }
    assert (P0 : 1 + k <> 0).
    { intros E; apply (F_1_neq_0 FT'); apply (o_anti _ _ OR); [|apply (one_nonneg F O finv FT le OR)].
      apply ge0; replace (0 - 1) with k; [exact K0|]; transitivity (1 + k - 1); [ring|rewrite E; ring]. }
    (* l = (1 + k) / 2, (x + y)^2 <= x^2 / l + y^2 / (1 - l) *)
    set (a := (1 + 1) / (1 + k)); set (b := (1 + 1) / (1 - k)).
    assert (A0 : 0 <= a).
    { apply (div_nonneg F O finv FT le OR); [exact P0| |]; apply (add_nonneg F O finv FT le OR); try apply (one_nonneg F O finv FT le OR); exact K0. }
    assert (B0 : 0 <= b).
    { apply (div_nonneg F O finv FT le OR); [exact N0| |exact N1]; apply (add_nonneg F O finv FT le OR); apply (one_nonneg F O finv FT le OR). }
    assert (Y2 : forall x y, (x + y) * (x + y) <= a * (x * x) + b * (y * y)).
    { intros x y; apply ge0.
      set (z := (1 - k) * x - (1 + k) * y).
      replace (a * (x * x) + b * (y * y) - (x + y) * (x + y)) with ((z * z) / ((1 + k) * (1 - k))).
      - apply (div_nonneg F O finv FT le OR); [|apply (sq_nonneg F O finv FT le OR)|].
        + intros E; apply N0; apply (mul_zero (1 + k)); [exact P0|exact E].
        + apply (o_mul _ _ OR); [|exact N1]; apply (add_nonneg F O finv FT le OR); [apply (one_nonneg F O finv FT le OR)|exact K0].
      - unfold a, b, z; field; split; assumption. }
    set (q := fun t => X t * X t + Y t * Y t); set (E := b * (C + D)); set (m := a * k).
    assert (Q1 : forall t, q (S t) <= m * q t + E).
    { intros t; unfold q at 1; rewrite HX, HY.
      apply (trans _ ((a * (x1 t * x1 t) + b * (c t * c t)) + (a * (y1 t * y1 t) + b * (d t * d t)))); [apply add_mono; apply Y2|].
      replace (a * (x1 t * x1 t) + b * (c t * c t) + (a * (y1 t * y1 t) + b * (d t * d t))) with (a * (x1 t * x1 t + y1 t * y1 t) + b * (c t * c t + d t * d t)) by ring.
      rewrite H1; unfold m, E, q; replace (a * (k * (X t * X t + Y t * Y t))) with (a * k * (X t * X t + Y t * Y t)) by ring.
      apply add_mono; [apply refl|apply mul_nonneg_le; [exact B0|apply add_mono; auto]]. }
    assert (M0 : 0 <= m) by (apply (o_mul _ _ OR); assumption).
    assert (M1 : 1 - m = (1 - k) / (1 + k)) by (unfold m, a; field; exact P0).
    assert (Mn : 1 - m <> 0).
    { rewrite M1; intros G; apply N0; transitivity ((1 - k) / (1 + k) * (1 + k)); [field; exact P0|rewrite G; ring]. }
    assert (Mp : 0 <= 1 - m).
    { rewrite M1; apply (div_nonneg F O finv FT le OR); [exact P0|exact N1|]; apply (add_nonneg F O finv FT le OR); [apply (one_nonneg F O finv FT le OR)|exact K0]. }
    assert (Q0 : forall t, 0 <= q t) by (intros t; apply (add_nonneg F O finv FT le OR); apply (sq_nonneg F O finv FT le OR)).
    assert (C0 : 0 <= C) by (apply (trans _ (c 0%nat * c 0%nat)); [apply (sq_nonneg F O finv FT le OR)|apply Hc]).
    assert (D0 : 0 <= D) by (apply (trans _ (d 0%nat * d 0%nat)); [apply (sq_nonneg F O finv FT le OR)|apply Hd]).
    assert (E0 : 0 <= E) by (apply (o_mul _ _ OR); [exact B0|apply (add_nonneg F O finv FT le OR); assumption]).
    assert (QB : forall t, q t <= q 0%nat + E / (1 - m)).
    { induction t as [|t IH].
      - apply ge0; replace (q 0%nat + E / (1 - m) - q 0%nat) with (E / (1 - m)) by (field; exact Mn); apply (div_nonneg F O finv FT le OR); assumption.
      - apply (trans _ _ _ (Q1 t)); apply (trans _ (m * (q 0%nat + E / (1 - m)) + E)).
        + apply add_mono; [apply mul_nonneg_le; assumption|apply refl].
        + apply ge0.
          replace (q 0%nat + E / (1 - m) - (m * (q 0%nat + E / (1 - m)) + E)) with ((1 - m) * q 0%nat) by (field; exact Mn).
          apply (o_mul _ _ OR); [exact Mp|apply Q0]. }
    split; exists (q 0%nat + E / (1 - m)); intros t; (apply (trans _ (q t)); [|apply QB]); unfold q; apply ge0;
      [replace (X t * X t + Y t * Y t - X t * X t) with (Y t * Y t) by ring|replace (X t * X t + Y t * Y t - Y t * Y t) with (X t * X t) by ring]; apply (sq_nonneg F O finv FT le OR).
  Qed.
End Growth.
