(** Ordered fields: squares, sums, the Cauchy-Schwarz inequality. *)
From Verif Require Import Base Nd SimSpec NdProofs.
From Coq Require Import Ring Field.

Section Order.
  Variable F : Type.
  Variable O : rops F.
  Variable inv : F -> F.
  Variable FT : is_field O inv.
  Variable le : F -> F -> Prop.
  Hypothesis OR : is_ordered O le.
  Let FT' : field_theory (r0 O) (r1 O) (radd O) (rmul O) (rsub O) (ropp O) (rdiv O) inv eq := FT.
  Add Field Ffield6 : FT'.
  Let RT : is_ring O := F_R FT'.
  Notation rsum := (Nd.rsum F O).
  Notation "0" := (r0 O). Notation "1" := (r1 O).
  Infix "+" := (radd O). Infix "*" := (rmul O). Infix "-" := (rsub O). Infix "/" := (rdiv O).
  Infix "<=" := le.

  Lemma le_refl x : x <= x.
  Proof using OR. destruct (o_total _ _ OR x x); assumption. Qed.
  Lemma le_sub x y : x <= y <-> 0 <= y - x.
  Proof using OR FT.
    split; intros H.
    - apply (o_add _ _ OR _ _ (ropp O x)) in H.
      replace 0 with (x + ropp O x) by ring; replace (y - x) with (y + ropp O x) by ring; exact H.
    - apply (o_add _ _ OR _ _ x) in H; replace x with (0 + x) by ring; replace y with (y - x + x) by ring; exact H.
  Qed.
  Lemma sq_nonneg x : 0 <= x * x.
  Proof using OR FT.
    destruct (o_total _ _ OR 0 x) as [H|H]; [apply (o_mul _ _ OR); assumption|].
    apply le_sub in H; replace (x * x) with ((0 - x) * (0 - x)) by ring; apply (o_mul _ _ OR); assumption.
  Qed.
  Lemma one_nonneg : 0 <= 1.
  Proof using OR FT. replace 1 with (1 * 1) by ring; apply sq_nonneg. Qed.
  Lemma add_nonneg x y : 0 <= x -> 0 <= y -> 0 <= x + y.
  Proof using OR FT.
    intros Hx Hy; apply (o_trans _ _ OR _ y); [exact Hy|].
    apply (o_add _ _ OR _ _ y) in Hx; replace (0 + y) with y in Hx by ring; exact Hx.
  Qed.
  Lemma number_nonneg n : 0 <= number O n.
  Proof using OR FT. induction n; [apply le_refl|apply add_nonneg; [assumption|apply one_nonneg]]. Qed.
  Lemma number_pos n : n <> 0%nat -> number O n <> 0.
  Proof using OR FT.
    destruct n as [|n]; [intros []; reflexivity|intros _]; cbn [number]; intros E.
    apply (F_1_neq_0 FT'), (o_anti _ _ OR); [|apply one_nonneg].
    apply le_sub; replace (0 - 1) with (number O n) by (transitivity (number O n + 1 - 1); [ring|rewrite E; reflexivity]).
    apply number_nonneg.
  Qed.
  Lemma sum_nonneg n f : (forall i, Peano.lt i n -> 0 <= f i) -> 0 <= rsum n f.
  Proof using OR FT.
    induction n as [|n IH]; intros H; cbn [Nd.rsum]; [apply le_refl|].
    apply add_nonneg; [apply IH; intros i Hi; apply H; lia|apply H; lia].
  Qed.
  Lemma inv_nonneg x : x <> 0 -> 0 <= x -> 0 <= 1 / x.
  Proof using OR FT.
    intros N H; replace (1 / x) with (x * ((1 / x) * (1 / x))) by (field; exact N).
    apply (o_mul _ _ OR); [exact H|apply sq_nonneg].
  Qed.
  Lemma div_nonneg x y : y <> 0 -> 0 <= x -> 0 <= y -> 0 <= x / y.
  Proof using OR FT.
    intros N Hx Hy; replace (x / y) with (x * (1 / y)) by (field; exact N).
    apply (o_mul _ _ OR); [exact Hx|apply inv_nonneg; assumption].
  Qed.

  Lemma cauchy_schwarz n a b :
    rsum n (fun i => a i * b i) * rsum n (fun i => a i * b i) <= rsum n (fun i => a i * a i) * rsum n (fun i => b i * b i).
  Proof using OR FT.
    apply le_sub; induction n as [|n IH]; cbn [Nd.rsum].
    - replace (0 * 0 - 0 * 0) with 0 by ring; apply le_refl.
    - set (A := rsum n (fun i => a i * a i)) in *; set (B := rsum n (fun i => b i * b i)) in *; set (C := rsum n (fun i => a i * b i)) in *.
      assert (E : rsum n (fun i => (a i * b n - a n * b i) * (a i * b n - a n * b i)) = A * (b n * b n) + B * (a n * a n) - C * ((a n * b n) + (a n * b n))).
      { subst A B C; rewrite <- !(rsum_mul_r F O RT), <- (rsum_add F O RT), <- (rsum_sub F O RT); apply rsum_ext; intros i _; ring. }
      replace ((A + a n * a n) * (B + b n * b n) - (C + a n * b n) * (C + a n * b n))
        with ((A * B - C * C) + rsum n (fun i => (a i * b n - a n * b i) * (a i * b n - a n * b i))) by (rewrite E; ring).
      apply add_nonneg; [exact IH|apply sum_nonneg; intros i _; apply sq_nonneg].
  Qed.
  Lemma mul_mono x y z w : 0 <= x -> x <= y -> 0 <= z -> z <= w -> x * z <= y * w.
  Proof using OR FT.
    intros Hx Hxy Hz Hzw; apply le_sub.
    replace (y * w - x * z) with ((y - x) * (z + (w - z)) + x * (w - z)) by ring.
    apply le_sub in Hxy, Hzw; apply add_nonneg; apply (o_mul _ _ OR); try assumption; apply add_nonneg; assumption.
  Qed.
  Lemma le_div x y z : z <> 0 -> 0 <= z -> x <= y -> x / z <= y / z.
  Proof using OR FT.
    intros N Hz H; apply le_sub; replace (y / z - x / z) with ((y - x) / z) by (field; exact N).
    apply div_nonneg; [exact N|apply (proj1 (le_sub x y)), H|exact Hz].
  Qed.
End Order.
