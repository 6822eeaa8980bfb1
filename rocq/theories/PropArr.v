(** Array helpers: C54 (stacking with an overlap), C55 (products with Kronecker products). *)
From Verif Require Import Base Nd SimSpec NdProofs SimProofs NdInst.
From Coq Require Import Ring.

Section Arr.
  Variable F : Type.
  Variable O : rops F.

  (** C54: all rows of the first matrix, then the rows of the second from the overlap on. *)
  Theorem C54_stack n0 n1 c f g overlap : overlap <= n1 ->
    exists h, array_shingle F (M2 n0 c f) (M2 n1 c g) (Z.of_nat overlap) = Ok (M2 (n0 + n1 - overlap) c h) /\
      (forall i j, i < n0 -> h i j = f i j) /\
      (forall i j, overlap + i < n1 -> h (n0 + i) j = g (overlap + i) j).
  Proof.
    intros H; unfold array_shingle; rewrite Nat.eqb_refl; cbn [negb].
    destruct (Z.ltb_spec (Z.of_nat n0 + Z.of_nat n1 - Z.of_nat overlap) 0) as [|_]; [lia|].
    destruct (Z.ltb_spec (Z.of_nat overlap) 0) as [|_]; [lia|].
    replace (Z.to_nat (Z.of_nat n0 + Z.of_nat n1 - Z.of_nat overlap)) with (n0 + n1 - overlap) by lia.
    replace (Z.to_nat (Z.min (Z.of_nat overlap) (Z.of_nat n1))) with overlap by lia.
    replace (Nat.min n0 (n0 + n1 - overlap)) with n0 by lia; rewrite Nat.eqb_refl; cbn [orb negb].
    replace (n0 + n1 - overlap - n0) with (n1 - overlap) by lia; rewrite Nat.eqb_refl; cbn [orb negb].
    eexists; split; [reflexivity|]; split.
    - intros i j Hi; destruct (Nat.ltb_spec i n0); [|lia]; rewrite at_lt by exact Hi; reflexivity.
    - intros i j Hi; destruct (Nat.ltb_spec (n0 + i) n0); [lia|].
      replace (n0 + i - n0) with i by lia; rewrite at_lt by lia; reflexivity.
  Qed.
  (** Matrices of different widths are rejected. *)
  Theorem C54_width n0 c0 f n1 c1 g overlap : c0 <> c1 -> array_shingle F (M2 n0 c0 f) (M2 n1 c1 g) overlap = Err ValueErr.
  Proof. intros N; unfold array_shingle; destruct (Nat.eqb_spec c0 c1); [contradiction|reflexivity]. Qed.
  (** The overlaps that are accepted: also two kinds that are out of range. *)
  Theorem C54_accepts_iff n0 n1 c f g overlap :
    (exists r, array_shingle F (M2 n0 c f) (M2 n1 c g) overlap = Ok r) <->
    (0 <= overlap <= Z.of_nat n1)%Z \/
    (n0 = 1 /\ overlap = (Z.of_nat n1 + 1)%Z) \/
    ((overlap < 0)%Z /\ (n1 = 1 \/ (n1 <> 0 /\ overlap = (-1)%Z))).
  Proof.
    unfold array_shingle; rewrite Nat.eqb_refl; cbn [negb].
    destruct (Z.ltb_spec (Z.of_nat n0 + Z.of_nat n1 - overlap) 0) as [H|H].
    { split; [intros (r & E); discriminate E|lia]. }
    set (h := Z.to_nat _); assert (Hh : Z.of_nat h = (Z.of_nat n0 + Z.of_nat n1 - overlap)%Z) by (unfold h; lia).
    set (start := if (overlap <? 0)%Z then _ else _).
    assert (Hs : (overlap < 0 /\ Z.of_nat start = Z.max 0 (Z.of_nat n1 + overlap) \/ 0 <= overlap /\ Z.of_nat start = Z.min overlap (Z.of_nat n1))%Z).
    { unfold start; destruct (Z.ltb_spec overlap 0); [left|right]; lia. }
    clearbody h start.
    destruct (Nat.eqb_spec n0 (Nat.min n0 h)) as [E1|E1]; cbn [orb negb].
    - destruct (Nat.eqb_spec (n1 - start) (h - Nat.min n0 h)) as [E2|E2]; cbn [orb negb].
      + split; [intros _; lia|eauto].
      + destruct (Nat.eqb_spec (n1 - start) 1) as [E3|E3]; cbn [negb]; split; try (intros (r & E); discriminate E); eauto; lia.
    - destruct (Nat.eqb_spec n0 1) as [E1'|E1']; cbn [negb]; [|split; [intros (r & E); discriminate E|lia]].
      destruct (Nat.eqb_spec (n1 - start) (h - Nat.min n0 h)) as [E2|E2]; cbn [orb negb].
      + split; [intros _; lia|eauto].
      + destruct (Nat.eqb_spec (n1 - start) 1) as [E3|E3]; cbn [negb]; split; try (intros (r & E); discriminate E); eauto; lia.
  Qed.

  Hypothesis RT : is_ring O.
  Let RT' : ring_theory (r0 O) (r1 O) (radd O) (rmul O) (rsub O) (ropp O) eq := RT.
  Add Ring Fring5 : RT'.
  Notation Sum := (SimSpec.Sum F O).

  Lemma sum_prod a b f : Sum (a * b) f = Sum a (fun i => Sum b (fun j => f (i * b + j))).
  Proof using RT.
    change (SimSpec.Sum F O) with (rsum F O).
    induction a as [|a IH]; [reflexivity|].
    replace (S a * b) with (a * b + b) by lia.
    rewrite rsum_split by exact RT; rewrite IH; reflexivity.
  Qed.
  Lemma div_at b i j : j < b -> (i * b + j) / b = i.
  Proof using. intros H; rewrite Nat.div_add_l by lia; rewrite (Nat.div_small j b H); lia. Qed.
  Lemma mod_at b i j : j < b -> (i * b + j) mod b = j.
  Proof using. intros H; rewrite Nat.add_comm, Nat.mod_add, Nat.mod_small by lia; reflexivity. Qed.

  (** C55 for matrices: row and column of the Kronecker product are pairs of rows and
      columns of its factors. *)
  Theorem C55_matrices r rb cb rc cc A B C : 
    exists h, matrix_kron F O (M2 r (rb * rc) A) (M2 rb cb B) (Some (M2 rc cc C)) = Ok (M2 r (cb * cc) h) /\
      forall i b c, i < r -> b < cb -> c < cc ->
        h i (b * cc + c) = Sum rb (fun p => Sum rc (fun q => rmul O (A i (p * rc + q)) (rmul O (B p b) (C q c)))).
  Proof using RT.
    unfold matrix_kron, nkron; cbn [shape rows cols row_of].
    assert (G : forall i b c, i < r -> b < cb -> c < cc ->
      rsum F O (rb * rc) (fun x => rmul O (A i x) (rmul O (B (x / rc) ((b * cc + c) / cc)) (C (x mod rc) ((b * cc + c) mod cc)))) =
      Sum rb (fun p => Sum rc (fun q => rmul O (A i (p * rc + q)) (rmul O (B p b) (C q c))))).
    { intros i b c Hi Hb Hc; change (rsum F O) with (SimSpec.Sum F O); rewrite sum_prod; change (SimSpec.Sum F O) with (rsum F O).
      apply rsum_ext; intros p Hp; apply rsum_ext; intros q Hq; rewrite !div_at, !mod_at by assumption; reflexivity. }
    destruct (Nat.eqb_spec (rb * rc) 1) as [E|N].
    - unfold nouter; cbn [nsize].
      replace (r * (rb * rc)) with r by nia; replace (rb * rc * (cb * cc)) with (cb * cc) by nia.
      eexists; split; [reflexivity|]; intros i b c Hi Hb Hc; rewrite <- G by assumption; rewrite E.
      cbn [flat]; rewrite ?E, rsum_one, !Nat.div_1_r by exact RT; cbn [Nat.modulo Nat.divmod fst snd Nat.sub].
      assert (L : b * cc + c < cb * cc) by nia; rewrite (Nat.div_small _ _ L), (Nat.mod_small _ _ L).
      replace (i mod 1) with 0 by (symmetry; apply Nat.mod_1_r).
      apply Nat.eq_mul_1 in E; destruct E as [-> ->]; reflexivity.
    - cbn [nmatmul]; rewrite Nat.eqb_refl; eexists; split; [reflexivity|]; intros i b c Hi Hb Hc; apply G; assumption.
  Qed.
  (** Without a third matrix the second is used twice. *)
  Theorem C55_square A B : matrix_kron F O A B None = matrix_kron F O A B (Some B).
  Proof using. reflexivity. Qed.
  (** C55 for vectors: values as expected; the result is a vector exactly when the matrix
      has more or less than one column. *)
  Theorem C55_vectors r b c A B C :
    exists res, matrix_kron F O (M2 r (b * c) A) (V1 b B) (Some (V1 c C)) = Ok res /\
      (forall i, i < r -> flat F res i = Sum b (fun p => Sum c (fun q => rmul O (A i (p * c + q)) (rmul O (B p) (C q))))) /\
      shape F res = if b * c =? 1 then [r; 1] else [r].
  Proof using RT.
    unfold matrix_kron, nkron; cbn [shape].
    assert (G : forall i, i < r ->
      rsum F O (b * c) (fun x => rmul O (A i x) (rmul O (B (x / c)) (C (x mod c)))) =
      Sum b (fun p => Sum c (fun q => rmul O (A i (p * c + q)) (rmul O (B p) (C q))))).
    { intros i Hi; change (rsum F O) with (SimSpec.Sum F O); rewrite sum_prod; change (SimSpec.Sum F O) with (rsum F O).
      apply rsum_ext; intros p Hp; apply rsum_ext; intros q Hq; rewrite !div_at, !mod_at by assumption; reflexivity. }
    destruct (Nat.eqb_spec (b * c) 1) as [E|N].
    - eexists; split; [reflexivity|]; split.
      + intros i Hi; rewrite <- G by assumption; unfold nouter; cbn [flat nsize]; rewrite E, rsum_one, !Nat.div_1_r by exact RT.
        rewrite Nat.mod_1_r; apply Nat.eq_mul_1 in E; destruct E as [_ ->]; rewrite Nat.div_1_r, Nat.mod_1_r; reflexivity.
      + unfold nouter; cbn [shape nsize]; f_equal; [nia|rewrite E; reflexivity].
    - cbn [nmatmul]; rewrite Nat.eqb_refl; eexists; split; [reflexivity|]; split; [exact G|reflexivity].
  Qed.
  (** Other numbers of columns are rejected. *)
  Theorem C55_mismatch r ca rb cb rc cc A B C : ca <> rb * rc ->
    matrix_kron F O (M2 r ca A) (M2 rb cb B) (Some (M2 rc cc C)) = Err ValueErr.
  Proof using.
    intros N; unfold matrix_kron, nkron; cbn [shape rows cols]; destruct (Nat.eqb_spec ca 1) as [->|_].
    - destruct (Nat.eqb_spec (rb * rc) 1) as [E|_]; [congruence|]; cbn [nmatmul].
      destruct (rb * rc) as [|[|x]]; try reflexivity; congruence.
    - cbn [nmatmul]; destruct (Nat.eqb_spec ca (rb * rc)); [contradiction|reflexivity].
  Qed.
End Arr.

(** Out-of-range overlaps are not always rejected: with overlap -1 the last row of the
    second matrix fills everything below the first. *)
Definition overlaps_checked : Prop :=
  forall n0 n1 c (f g : nat -> nat -> Z) overlap r,
    array_shingle Z (M2 n0 c f) (M2 n1 c g) overlap = Ok r -> (0 <= overlap <= Z.of_nat n1)%Z.
Theorem C54_refuted : ~ overlaps_checked.
Proof.
  intros H; specialize (H 2 2 1 (fun _ _ => 0%Z) (fun _ _ => 0%Z) (-1)%Z _ eq_refl); lia.
Qed.
(** The product with vectors is not always a vector. *)
Definition kron_like_matmul : Prop :=
  forall r b c (A : nat -> nat -> Z) B C,
    exists h, matrix_kron Z ZO (M2 r (b * c) A) (V1 b B) (Some (V1 c C)) = Ok (V1 r h).
Theorem C55_refuted : ~ kron_like_matmul.
Proof. intros H; destruct (H 2 1 1 (fun _ _ => 1%Z) (fun _ => 1%Z) (fun _ => 1%Z)) as (h & E); discriminate E. Qed.

Definition dump (a : res (nd Z)) : list (list Z) :=
  match a with Ok (M2 r c f) => map (fun i => map (f i) (seq 0 c)) (seq 0 r) | Ok (V1 n f) => [map f (seq 0 n)] | _ => [] end.
Definition mat (l : list (list Z)) : nd Z := M2 (List.length l) (List.length (hd [] l)) (fun i j => nth j (nth i l []) 0%Z).
Example C54_nonvacuous : dump (array_shingle Z (mat [[1; 2]; [3; 4]]%Z) (mat [[5; 6]; [7; 8]; [9; 10]]%Z) 1%Z) =
  [[1; 2]; [3; 4]; [7; 8]; [9; 10]]%Z.
Proof. reflexivity. Qed.
Example C55_nonvacuous : dump (matrix_kron Z ZO (mat [[1; 2; 3; 4]]%Z) (mat [[1; 0]; [2; 1]]%Z) (Some (mat [[1]; [5]]%Z))) = [[57; 23]]%Z.
Proof. reflexivity. Qed.

Print Assumptions C54_stack.
Print Assumptions C54_width.
Print Assumptions C54_accepts_iff.
Print Assumptions C54_refuted.
Print Assumptions C55_matrices.
Print Assumptions C55_square.
Print Assumptions C55_vectors.
Print Assumptions C55_mismatch.
Print Assumptions C55_refuted.
