(** Back-substitution over the columns of a quasi-triangular pair. *)
From Verif Require Import Base Nd NdProofs Mat MatProofs SimSpec FirstOrder FirstOrderSpec Sylvester SylvesterSpec.

Section Columns.
  Variable F : Type.
  Variable O : rops F.
  Hypothesis RT : is_ring O.
  Let RT' : ring_theory (r0 O) (r1 O) (radd O) (rmul O) (rsub O) (ropp O) eq := RT.
  Add Ring SylRing : RT'.
  Variable eqb : F -> F -> bool.
  Hypothesis eqb_eq : forall x y, eqb x y = true <-> x = y.
  Variable solve : nat -> nat -> mat F -> mat F -> res (mat F).
  Hypothesis Hs : linear_routine F O solve.
  Hypothesis He : fails_when_singular F O solve.
  Variables m n : nat.
  Variables P S_ T R : mat F.
  Hypothesis HR : forall i j, i < n -> j < i -> R i j = r0 O.
  Hypothesis HT : forall i j, i < n -> S j < i -> T i j = r0 O.
  Hypothesis Hb : forall j, S (S j) < n -> T (S j) j = r0 O \/ T (S (S j)) (S j) = r0 O.
  Local Notation "x + y" := (radd O x y).
  Local Notation "x - y" := (rsub O x y).
  Local Notation "x * y" := (rmul O x y).
  Local Notation rsum := (rsum F O).
  Local Notation comb := (combination F O P S_).

  (** Contribution of column [c] of [Y] to entry [i] of row [a]; all of row [a]. *)
  Definition part (Y : mat F) (i a c : nat) : F := rsum m (fun l => comb (R a c) (T a c) i l * Y l c).
  Definition total (Y : mat F) (i a : nat) : F := rsum n (part Y i a).
  Definition after (Y : mat F) (i a d : nat) : F := rsum (n - d) (fun j => part Y i a (d + j)).

  (** No row from [d] on reads a column before [d]. *)
  Definition border (d : nat) : Prop := forall a c, d <= a -> a < n -> c < d -> R a c = r0 O /\ T a c = r0 O.
  Lemma border_at d : (forall c, d = S c -> d < n -> T d c = r0 O) -> border d.
  Proof.
    intros H a c L La Lc; split; [apply HR; lia|].
    destruct (Nat.eq_dec a (S c)) as [E|E]; [|apply HT; lia].
    subst a; assert (d = S c) by lia; subst d; apply H; [reflexivity|lia].
  Qed.
  Lemma part_ext Y Y' i a c : (forall l, l < m -> Y l c = Y' l c) -> part Y i a c = part Y' i a c.
  Proof. intros H; unfold part; apply rsum_ext; intros l Hl; rewrite H by exact Hl; reflexivity. Qed.
  Lemma part_zero Y i a c : R a c = r0 O -> T a c = r0 O -> part Y i a c = r0 O.
  Proof. intros E1 E2; unfold part; apply (rsum_all_zero F O RT); intros l _; unfold combination; rewrite E1, E2; ring. Qed.
  Lemma part_zero_col Y i a c : (forall l, l < m -> Y l c = r0 O) -> part Y i a c = r0 O.
  Proof. intros H; unfold part; apply (rsum_all_zero F O RT); intros l Hl; rewrite H by exact Hl; ring. Qed.
  (** A row only reads the columns from its border on. *)
  Lemma total_after Y i a d : d <= n -> (forall c, c < d -> R a c = r0 O /\ T a c = r0 O) -> total Y i a = after Y i a d.
  Proof.
    intros L H; unfold total, after; replace n with (d + (n - d))%nat at 1 by lia; rewrite (rsum_split F O RT).
    rewrite (rsum_all_zero F O RT d); [ring|]; intros c Hc; destruct (H c Hc) as [E1 E2]; apply part_zero; assumption.
  Qed.
  Lemma after_ext Y Y' i a d : (forall l c, l < m -> d <= c -> c < n -> Y l c = Y' l c) -> after Y i a d = after Y' i a d.
  Proof. intros H; unfold after; apply rsum_ext; intros j Hj; apply part_ext; intros l Hl; apply H; lia. Qed.
  Lemma total_ext Y Y' i a d : d <= n -> border d -> d <= a < n -> (forall l c, l < m -> d <= c -> c < n -> Y l c = Y' l c) -> total Y i a = total Y' i a.
  Proof.
    intros L B A H; rewrite (total_after Y i a d), (total_after Y' i a d); try exact L; try (intros c Hc; apply B; lia).
    apply after_ext, H.
  Qed.
  Lemma after_zero Y i a d : (forall l c, l < m -> d <= c -> c < n -> Y l c = r0 O) -> after Y i a d = r0 O.
  Proof. intros H; unfold after; apply (rsum_all_zero F O RT); intros j Hj; apply part_zero_col; intros l Hl; apply H; lia. Qed.
  Lemma after_step Y i a d : d < n -> after Y i a d = part Y i a d + after Y i a (S d).
  Proof.
    intros L; unfold after; replace (n - d)%nat with (1 + (n - S d))%nat by lia; rewrite (rsum_split F O RT), (rsum_one F O RT), Nat.add_0_r.
    f_equal; apply rsum_ext; intros j _; f_equal; lia.
  Qed.

  (** What the loops over the known columns compute. *)
  Lemma fold_sum (h : nat -> vec F) l v i : fold_left (fun y j => vadd F O y (h j)) l v i = v i + lsum F O (map (fun j => h j i) l).
  Proof.
    revert v; induction l as [|a l IH]; intros v; cbn [fold_left map]; [cbn; ring|]. rewrite IH; cbn; unfold vadd; ring.
  Qed.
  Lemma known_after a k Y i : k < n -> known F O m n P S_ T R a (Z.of_nat k) Y i = after Y i a (S k).
  Proof.
    intros L; unfold known, after; rewrite fold_sum, <- (rsum_lsum F O RT); unfold vzero.
    replace (Z.to_nat (Z.of_nat n - 1 - Z.of_nat k)) with (n - S k)%nat by lia.
    transitivity (rsum (n - S k) (fun j => part Y i a (S k + j)%nat)); [|reflexivity].
    replace (r0 O + _) with (rsum (n - S k) (fun j => mvec F O m (comb (R a (wrap n (Z.of_nat k + 1 + Z.of_nat j))) (T a (wrap n (Z.of_nat k + 1 + Z.of_nat j)))) (fun i0 => Y i0 (wrap n (Z.of_nat k + 1 + Z.of_nat j))) i)) by ring.
    apply rsum_ext; intros j Hj; unfold wrap; replace (Z.of_nat k + 1 + Z.of_nat j <? 0)%Z with false by (symmetry; apply Z.ltb_ge; lia).
    replace (Z.to_nat (Z.of_nat k + 1 + Z.of_nat j)) with (S k + j)%nat by lia; reflexivity.
  Qed.
  Lemma wrap_nat k : wrap n (Z.of_nat k) = k.
  Proof. unfold wrap; replace (Z.of_nat k <? 0)%Z with false by (symmetry; apply Z.ltb_ge; lia); apply Nat2Z.id. Qed.
  Lemma put_same c v Y i : put F c v Y i c = v i.
  Proof. unfold put; rewrite Nat.eqb_refl; reflexivity. Qed.
  Lemma put_other c v Y i j : j <> c -> put F c v Y i j = Y i j.
  Proof. intros H; unfold put; rewrite (proj2 (Nat.eqb_neq j c) H); reflexivity. Qed.

  (** ** One column *)
  Section One.
    Variable k : nat.
    Hypothesis Hk : k < n.
    Hypothesis Hz : forall c, k = S c -> T k c = r0 O.
    Lemma border_k : border k.
    Proof. apply border_at; intros c E _; apply Hz, E. Qed.
    Lemma one_total Y i : total Y i k = rsum m (fun l => comb (R k k) (T k k) i l * Y l k) + after Y i k (S k).
    Proof. rewrite (total_after Y i k k) by (try lia; intros c Hc; apply border_k; lia); rewrite after_step by exact Hk; reflexivity. Qed.
    Lemma one_ok f Y Y' : one_column F O solve m n P S_ T R f (Z.of_nat k) Y = Ok Y' ->
      (forall l c, c <> k -> Y' l c = Y l c) /\ forall i, i < m -> total Y' i k = f i k.
    Proof.
      unfold one_column; rewrite !wrap_nat; intros H; apply bind_ok in H as (y & E & H); injection H as <-.
      split; [intros l c N; apply put_other, N|].
      intros i Hi; rewrite one_total; pose proof (Hs _ _ _ _ _ E i 0 Hi ltac:(lia)) as G; rewrite Sum_rsum in G; unfold col in G.
      rewrite (rsum_ext F O m _ (fun l => comb (R k k) (T k k) i l * y l 0)) by (intros l _; rewrite put_same; reflexivity).
      rewrite G, known_after by exact Hk.
      rewrite (after_ext (put F k (fun i0 => y i0 0) Y) Y i k (S k)) by (intros l c _ Lc _; apply put_other; lia). ring.
    Qed.
    Lemma one_err f Y e : one_column F O solve m n P S_ T R f (Z.of_nat k) Y = Err e ->
      exists V, (exists l, l < m /\ V l k <> r0 O) /\ (forall l c, c <> k -> V l c = r0 O) /\ forall i, i < m -> total V i k = r0 O.
    Proof.
      unfold one_column; rewrite !wrap_nat; intros H; destruct (solve m 1 _ _) as [y|e'] eqn:E; [discriminate H|].
      destruct (He _ _ _ _ _ E) as (v & (i & Hi & Hv) & K).
      exists (put F k v (fun _ _ => r0 O)); split; [exists i; split; [exact Hi|rewrite put_same; exact Hv]|].
      split; [intros l c N; apply put_other, N|].
      intros j Hj; rewrite one_total, after_zero by (intros l c _ Lc _; rewrite put_other by lia; reflexivity).
      specialize (K j Hj); rewrite Sum_rsum in K.
      rewrite (rsum_ext F O m _ (fun l => comb (R k k) (T k k) j l * v l)) by (intros l _; rewrite put_same; reflexivity).
      rewrite K; ring.
    Qed.
  End One.

  (** ** Two columns *)
  Section Two.
    Variable a : nat.
    Hypothesis Hk : S a < n.
    Hypothesis Hz : forall c, a = S c -> T a c = r0 O.
    Let b := S a.
    Let big := vcat F m (hcat F m (comb (R a a) (T a a)) (comb (R a b) (T a b))) (hcat F m (mscale F O (T b a) S_) (comb (R b b) (T b b))).
    Lemma border_a : border a.
    Proof. apply border_at; intros c E _; apply Hz, E. Qed.
    Lemma two_total Y i r : a <= r < n -> total Y i r = part Y i r a + (part Y i r b + after Y i r (S b)).
    Proof.
      intros H; rewrite (total_after Y i r a) by (try lia; intros c Hc; apply border_a; lia).
      rewrite after_step, after_step by (unfold b; lia); reflexivity.
    Qed.
    (** The rows of the large system. *)
    Lemma big_rows v i : i < m ->
      rsum (m + m) (fun l => big i l * v l) = rsum m (fun l => comb (R a a) (T a a) i l * v l) + rsum m (fun l => comb (R a b) (T a b) i l * v (m + l)%nat) /\
      rsum (m + m) (fun l => big (m + i)%nat l * v l) = rsum m (fun l => comb (R b a) (T b a) i l * v l) + rsum m (fun l => comb (R b b) (T b b) i l * v (m + l)%nat).
    Proof.
      intros Hi; rewrite !(rsum_split F O RT); unfold big, vcat.
      rewrite (proj2 (Nat.ltb_lt i m) Hi), (proj2 (Nat.ltb_ge (m + i) m)) by lia.
      replace (m + i - m)%nat with i by lia; unfold hcat.
      split; f_equal; apply rsum_ext; intros l Hl.
      - rewrite (proj2 (Nat.ltb_lt l m) Hl); reflexivity.
      - rewrite (proj2 (Nat.ltb_ge (m + l) m)) by lia; replace (m + l - m)%nat with l by lia; reflexivity.
      - rewrite (proj2 (Nat.ltb_lt l m) Hl); unfold mscale, combination; rewrite (HR b a) by (unfold b; lia); ring.
      - rewrite (proj2 (Nat.ltb_ge (m + l) m)) by lia; replace (m + l - m)%nat with l by lia; reflexivity.
    Qed.
    Lemma wrap_a : wrap n (Z.of_nat b - 1) = a.
    Proof. replace (Z.of_nat b - 1)%Z with (Z.of_nat a) by (unfold b; lia); apply wrap_nat. Qed.
    Lemma two_ok f Y Y' : two_columns F O solve m n P S_ T R f (Z.of_nat b) Y = Ok Y' ->
      (forall l c, c <> a -> c <> b -> Y' l c = Y l c) /\ forall i, i < m -> total Y' i a = f i a /\ total Y' i b = f i b.
    Proof.
      unfold two_columns; rewrite !wrap_nat, !wrap_a; cbv zeta; fold big; intros H; apply bind_ok in H as (y & E & H); injection H as <-.
      split; [intros l c Na Nb; rewrite !put_other by assumption; reflexivity|].
      assert (C : forall i r, i < m -> a <= r < n -> total (put F b (fun i => y (m + i)%nat 0) (put F a (fun i => y i 0) Y)) i r =
                   rsum m (fun l => comb (R r a) (T r a) i l * y l 0) + rsum m (fun l => comb (R r b) (T r b) i l * y (m + l)%nat 0) + after Y i r (S b)).
      { intros i r Hi Hr; rewrite two_total by exact Hr; unfold part.
        rewrite (rsum_ext F O m (fun l => _ * put F b _ _ l a) (fun l => comb (R r a) (T r a) i l * y l 0)).
        2: { intros l _; rewrite put_other by (unfold b; lia); rewrite put_same; reflexivity. }
        rewrite (rsum_ext F O m (fun l => _ * put F b _ _ l b) (fun l => comb (R r b) (T r b) i l * y (m + l)%nat 0)).
        2: { intros l _; rewrite put_same; reflexivity. }
        rewrite (after_ext (put F b (fun i0 => y (m + i0)%nat 0) (put F a (fun i0 => y i0 0) Y)) Y i r (S b)); [ring|].
        intros l c _ Lc _; rewrite !put_other by (unfold b in *; lia); reflexivity. }
      intros i Hi; destruct (big_rows (fun l => y l 0) i Hi) as [G1 G2].
      pose proof (Hs _ _ _ _ _ E i 0 ltac:(lia) ltac:(lia)) as K1; pose proof (Hs _ _ _ _ _ E (m + i)%nat 0 ltac:(lia) ltac:(lia)) as K2.
      rewrite Sum_rsum in K1, K2; rewrite G1 in K1; rewrite G2 in K2; unfold col in K1, K2.
      rewrite (proj2 (Nat.ltb_lt i m) Hi) in K1; rewrite (proj2 (Nat.ltb_ge (m + i) m)) in K2 by lia; replace (m + i - m)%nat with i in K2 by lia.
      rewrite known_after in K1, K2 by (unfold b; lia).
      rewrite !C by (try exact Hi; unfold b; lia); rewrite K1, K2; split; ring.
    Qed.
    Lemma two_err f Y e : two_columns F O solve m n P S_ T R f (Z.of_nat b) Y = Err e ->
      exists V, (exists l c, l < m /\ (c = a \/ c = b) /\ V l c <> r0 O) /\ (forall l c, c <> a -> c <> b -> V l c = r0 O) /\
        forall i, i < m -> total V i a = r0 O /\ total V i b = r0 O.
    Proof.
      unfold two_columns; rewrite !wrap_nat, !wrap_a; cbv zeta; fold big; intros H; destruct (solve (m + m) 1 _ _) as [y|e'] eqn:E; [discriminate H|].
      destruct (He _ _ _ _ _ E) as (v & (i & Hi & Hv) & K).
      set (V := put F b (fun i => v (m + i)%nat) (put F a v (fun _ _ => r0 O))).
      assert (Va : forall l, V l a = v l) by (intros l; unfold V; rewrite put_other by (unfold b; lia); rewrite put_same; reflexivity).
      assert (Vb : forall l, V l b = v (m + l)%nat) by (intros l; unfold V; rewrite put_same; reflexivity).
      exists V; split.
      { destruct (Nat.lt_ge_cases i m) as [L|L]; [exists i, a|exists (i - m)%nat, b].
        - split; [exact L|]; split; [left; reflexivity|]; rewrite Va; exact Hv.
        - split; [lia|]; split; [right; reflexivity|]; rewrite Vb; replace (m + (i - m))%nat with i by lia; exact Hv. }
      split; [intros l c Na Nb; unfold V; rewrite !put_other by assumption; reflexivity|].
      assert (C : forall i r, i < m -> a <= r < n -> total V i r =
                   rsum m (fun l => comb (R r a) (T r a) i l * v l) + rsum m (fun l => comb (R r b) (T r b) i l * v (m + l)%nat)).
      { intros j r Hj Hr; rewrite two_total by exact Hr; unfold part.
        rewrite (rsum_ext F O m (fun l => _ * V l a) (fun l => comb (R r a) (T r a) j l * v l)) by (intros l _; rewrite Va; reflexivity).
        rewrite (rsum_ext F O m (fun l => _ * V l b) (fun l => comb (R r b) (T r b) j l * v (m + l)%nat)) by (intros l _; rewrite Vb; reflexivity).
        rewrite after_zero; [ring|]. intros l c _ Lc _; unfold V; rewrite !put_other by (unfold b in *; lia); reflexivity. }
      intros j Hj; destruct (big_rows v j Hj) as [G1 G2].
      pose proof (K j ltac:(lia)) as K1; pose proof (K (m + j)%nat ltac:(lia)) as K2; rewrite Sum_rsum in K1, K2.
      rewrite G1 in K1; rewrite G2 in K2; rewrite !C by (try exact Hj; unfold b; lia); split; assumption.
    Qed.
  End Two.

  (** ** The loop *)
  Definition kernel : Prop := exists Y, (exists i j, i < m /\ j < n /\ Y i j <> r0 O) /\ forall i j, i < m -> j < n -> total Y i j = r0 O.
  Definition zeros_below (d : nat) : nat := List.length (filter (fun i => eqb (T (S i) i) (r0 O)) (seq 0 (d - 1))).
  (** Passages that remain with [d] columns to go. *)
  Definition remaining (d : nat) : nat := if d =? 0 then 0 else S (zeros_below d).
  Lemma eqb_false x y : eqb x y = false <-> x <> y.
  Proof. rewrite <- eqb_eq; destruct (eqb x y); split; congruence. Qed.
  Lemma zeros_step d : zeros_below (S (S d)) = (zeros_below (S d) + (if eqb (T (S d) d) (r0 O) then 1 else 0))%nat.
  Proof.
    unfold zeros_below; cbn [Nat.sub]; rewrite !Nat.sub_0_r, seq_S, filter_app, app_length; cbn [Nat.add filter]; destruct (eqb _ _); reflexivity.
  Qed.

  (** The cases of a passage with columns 0 to [k] to go. *)
  Inductive passage (k : nat) : Prop :=
  | OneLeft : (forall c, k = S c -> T k c = r0 O) -> passage k
  | TwoLeft a : k = S a -> T k a <> r0 O -> (forall c, a = S c -> T a c = r0 O) -> passage k.
  Lemma passage_cases k : k < n -> passage k.
  Proof.
    intros Hk; destruct k as [|a]; [apply OneLeft; intros c E; discriminate E|].
    destruct (eqb (T (S a) a) (r0 O)) eqn:E; [apply eqb_eq in E; apply OneLeft; intros c Ec; injection Ec as <-; exact E|].
    apply eqb_false in E; apply (TwoLeft _ a eq_refl E); intros c ->; destruct (Hb c Hk) as [G|G]; [exact G|contradiction].
  Qed.

  (** A vector that the columns from [d] on send to zero can be completed. *)
  Lemma complete d : d <= n -> border d -> forall V, (exists i j, i < m /\ d <= j /\ j < n /\ V i j <> r0 O) ->
    (forall i j, i < m -> d <= j -> j < n -> total V i j = r0 O) -> kernel.
  Proof.
    induction d as [d IH] using lt_wf_ind; intros L B V (i0 & j0 & Hi0 & Hj0 & Hn0 & N) Z.
    destruct d as [|k]; [exists V; split; [exists i0, j0; auto|intros i j Hi Hj; apply Z; lia]|].
    destruct (passage_cases k ltac:(lia)) as [Hz|a -> Hnz Hz].
    - destruct (one_column F O solve m n P S_ T R (fun _ _ => r0 O) (Z.of_nat k) V) as [V'|e] eqn:E.
      + apply (one_ok k ltac:(lia) Hz) in E as [K1 K2].
        apply (IH k ltac:(lia) ltac:(lia) (border_k k Hz) V'); [exists i0, j0; rewrite K1 by lia; repeat split; try assumption; lia|].
        intros i j Hi Lj Hj; destruct (Nat.eq_dec j k) as [->|Nj]; [apply K2, Hi|].
        rewrite (total_ext V' V i j (S k) L B ltac:(lia)) by (intros l c _ Lc _; apply K1; lia); apply Z; try assumption; lia.
      + apply (one_err k ltac:(lia) Hz) in E as (V' & (l & Hl & Nv) & K1 & K2).
        apply (IH k ltac:(lia) ltac:(lia) (border_k k Hz) V'); [exists l, k; repeat split; try assumption; lia|].
        intros i j Hi Lj Hj; destruct (Nat.eq_dec j k) as [->|Nj]; [apply K2, Hi|].
        rewrite (total_after V' i j (S k) L) by (intros c Hc; apply B; lia); apply after_zero; intros l' c _ Lc _; apply K1; lia.
    - destruct (two_columns F O solve m n P S_ T R (fun _ _ => r0 O) (Z.of_nat (S a)) V) as [V'|e] eqn:E.
      + apply (two_ok a ltac:(lia) Hz) in E as [K1 K2].
        apply (IH a ltac:(lia) ltac:(lia) (border_a a Hz) V'); [exists i0, j0; rewrite K1 by lia; repeat split; try assumption; lia|].
        intros i j Hi Lj Hj; destruct (Nat.eq_dec j a) as [->|Na]; [apply K2, Hi|]; destruct (Nat.eq_dec j (S a)) as [->|Nb]; [apply K2, Hi|].
        rewrite (total_ext V' V i j (S (S a)) L B ltac:(lia)) by (intros l c _ Lc _; apply K1; lia); apply Z; try assumption; lia.
      + apply (two_err a ltac:(lia) Hz) in E as (V' & (l & c0 & Hl & Hc0 & Nv) & K1 & K2).
        apply (IH a ltac:(lia) ltac:(lia) (border_a a Hz) V'); [exists l, c0; repeat split; try assumption; lia|].
        intros i j Hi Lj Hj; destruct (Nat.eq_dec j a) as [->|Na]; [apply K2, Hi|]; destruct (Nat.eq_dec j (S a)) as [->|Nb]; [apply K2, Hi|].
        rewrite (total_after V' i j (S (S a)) L) by (intros c Hc; apply B; lia); apply after_zero; intros l' c _ Lc _; apply K1; lia.
  Qed.

  Variable f : mat F.
  (** The loop from [d] columns to go: the result solves every row, or the equation is singular. *)
  Lemma columns_from d : d <= n -> border d -> forall Y, (forall i j, i < m -> d <= j -> j < n -> total Y i j = f i j) ->
    match columns F O eqb solve m n P S_ T R f (remaining d) (Z.of_nat d - 1)%Z Y with
    | Ok Y' => forall i j, i < m -> j < n -> total Y' i j = f i j
    | Err _ => kernel
    end.
  Proof.
    induction d as [d IH] using lt_wf_ind; intros L B Y H.
    destruct d as [|k]; [cbn [remaining Nat.eqb columns]; intros i j Hi Hj; apply H; lia|].
    unfold remaining; cbn [Nat.eqb]; cbn [columns].
    replace (Z.of_nat (S k) - 1)%Z with (Z.of_nat k) by lia; rewrite wrap_nat.
    replace ((Z.of_nat k - 1 <? - Z.of_nat n)%Z || (Z.of_nat n <=? Z.of_nat k)%Z) with false.
    2: { symmetry; apply orb_false_iff; split; [apply Z.ltb_ge; lia|apply Z.leb_gt; lia]. }
    destruct (passage_cases k ltac:(lia)) as [Hz|a -> Hnz Hz].
    - replace (negb (eqb (T k (wrap n (Z.of_nat k - 1))) (r0 O)) && negb (Z.of_nat k =? 0)%Z) with false.
      2: { symmetry; destruct k as [|c]; [apply andb_false_r|].
           replace (Z.of_nat (S c) - 1)%Z with (Z.of_nat c) by lia; rewrite wrap_nat, (proj2 (eqb_eq _ _) (Hz c eq_refl)); reflexivity. }
      replace (zeros_below (S k)) with (remaining k).
      2: { destruct k as [|c]; [reflexivity|]; rewrite zeros_step, (proj2 (eqb_eq _ _) (Hz c eq_refl)); unfold remaining; cbn [Nat.eqb]; lia. }
      destruct (one_column F O solve m n P S_ T R f (Z.of_nat k) Y) as [Y'|e] eqn:E; cbn [bind].
      + apply (one_ok k ltac:(lia) Hz) in E as [K1 K2].
        apply (IH k ltac:(lia) ltac:(lia) (border_k k Hz) Y').
        intros i j Hi Lj Hj; destruct (Nat.eq_dec j k) as [->|Nj]; [apply K2, Hi|].
        rewrite (total_ext Y' Y i j (S k) L B ltac:(lia)) by (intros l c _ Lc _; apply K1; lia); apply H; try assumption; lia.
      + apply (one_err k ltac:(lia) Hz) in E as (V' & (l & Hl & Nv) & K1 & K2).
        apply (complete k ltac:(lia) (border_k k Hz) V'); [exists l, k; repeat split; try assumption; lia|].
        intros i j Hi Lj Hj; destruct (Nat.eq_dec j k) as [->|Nj]; [apply K2, Hi|].
        rewrite (total_after V' i j (S k) L) by (intros c Hc; apply B; lia); apply after_zero; intros l' c _ Lc _; apply K1; lia.
    - replace (negb (eqb (T (S a) (wrap n (Z.of_nat (S a) - 1))) (r0 O)) && negb (Z.of_nat (S a) =? 0)%Z) with true.
      2: { symmetry; apply andb_true_iff; split; apply negb_true_iff; [|apply Z.eqb_neq; lia].
           replace (Z.of_nat (S a) - 1)%Z with (Z.of_nat a) by lia; rewrite wrap_nat; apply eqb_false, Hnz. }
      replace (zeros_below (S (S a))) with (remaining a).
      2: { rewrite zeros_step, (proj2 (eqb_false _ _) Hnz), Nat.add_0_r; destruct a as [|c]; [reflexivity|].
           rewrite zeros_step, (proj2 (eqb_eq _ _) (Hz c eq_refl)); unfold remaining; cbn [Nat.eqb]; lia. }
      destruct (two_columns F O solve m n P S_ T R f (Z.of_nat (S a)) Y) as [Y'|e] eqn:E; cbn [bind].
      + apply (two_ok a ltac:(lia) Hz) in E as [K1 K2].
        replace (Z.of_nat (S a) - 2)%Z with (Z.of_nat a - 1)%Z by lia.
        apply (IH a ltac:(lia) ltac:(lia) (border_a a Hz) Y').
        intros i j Hi Lj Hj; destruct (Nat.eq_dec j a) as [->|Na]; [apply K2, Hi|]; destruct (Nat.eq_dec j (S a)) as [->|Nb]; [apply K2, Hi|].
        rewrite (total_ext Y' Y i j (S (S a)) L B ltac:(lia)) by (intros l c _ Lc _; apply K1; lia); apply H; try assumption; lia.
      + apply (two_err a ltac:(lia) Hz) in E as (V' & (l & c0 & Hl & Hc0 & Nv) & K1 & K2).
        apply (complete a ltac:(lia) (border_a a Hz) V'); [exists l, c0; repeat split; try assumption; lia|].
        intros i j Hi Lj Hj; destruct (Nat.eq_dec j a) as [->|Na]; [apply K2, Hi|]; destruct (Nat.eq_dec j (S a)) as [->|Nb]; [apply K2, Hi|].
        rewrite (total_after V' i j (S (S a)) L) by (intros c Hc; apply B; lia); apply after_zero; intros l' c _ Lc _; apply K1; lia.
  Qed.
  Lemma columns_all Y : 0 < n ->
    match columns F O eqb solve m n P S_ T R f (passages F O eqb n T) (Z.of_nat n - 1)%Z Y with
    | Ok Y' => forall i j, i < m -> j < n -> total Y' i j = f i j
    | Err _ => kernel
    end.
  Proof.
    intros Hn; assert (E : passages F O eqb n T = remaining n).
    { unfold passages, remaining, zeros_below; destruct n as [|n']; [lia|]; reflexivity. }
    rewrite E; apply columns_from; [lia|intros a c L1 L2; lia|intros i j _ L1 L2; lia].
  Qed.

  (** ** Failures *)
  Lemma columns_fail d : d <= n -> forall Y e, columns F O eqb solve m n P S_ T R f (remaining d) (Z.of_nat d - 1)%Z Y = Err e ->
    exists q k A B, solve q k A B = Err e.
  Proof using eqb_eq HT HR Hb.
    induction d as [d IH] using lt_wf_ind; intros L Y e H.
    destruct d as [|k]; [discriminate H|].
    unfold remaining in H; cbn [Nat.eqb] in H; cbn [columns] in H.
    replace (Z.of_nat (S k) - 1)%Z with (Z.of_nat k) in H by lia; rewrite wrap_nat in H.
    replace ((Z.of_nat k - 1 <? - Z.of_nat n)%Z || (Z.of_nat n <=? Z.of_nat k)%Z) with false in H.
    2: { symmetry; apply orb_false_iff; split; [apply Z.ltb_ge; lia|apply Z.leb_gt; lia]. }
    destruct (passage_cases k ltac:(lia)) as [Hz|a -> Hnz Hz].
    - replace (negb (eqb (T k (wrap n (Z.of_nat k - 1))) (r0 O)) && negb (Z.of_nat k =? 0)%Z) with false in H.
      2: { symmetry; destruct k as [|c]; [apply andb_false_r|].
           replace (Z.of_nat (S c) - 1)%Z with (Z.of_nat c) by lia; rewrite wrap_nat, (proj2 (eqb_eq _ _) (Hz c eq_refl)); reflexivity. }
      replace (zeros_below (S k)) with (remaining k) in H.
      2: { destruct k as [|c]; [reflexivity|]; rewrite zeros_step, (proj2 (eqb_eq _ _) (Hz c eq_refl)); unfold remaining; cbn [Nat.eqb]; lia. }
      destruct (one_column F O solve m n P S_ T R f (Z.of_nat k) Y) as [Y1|e1] eqn:E; cbn [bind] in H; [exact (IH k ltac:(lia) ltac:(lia) Y1 e H)|].
      injection H as ->; unfold one_column in E; destruct (solve _ _ _ _) as [y|e'] eqn:Es in E; [discriminate E|]; injection E as ->; do 4 eexists; exact Es.
    - replace (negb (eqb (T (S a) (wrap n (Z.of_nat (S a) - 1))) (r0 O)) && negb (Z.of_nat (S a) =? 0)%Z) with true in H.
      2: { symmetry; apply andb_true_iff; split; apply negb_true_iff; [|apply Z.eqb_neq; lia].
           replace (Z.of_nat (S a) - 1)%Z with (Z.of_nat a) by lia; rewrite wrap_nat; apply eqb_false, Hnz. }
      replace (zeros_below (S (S a))) with (remaining a) in H.
      2: { rewrite zeros_step, (proj2 (eqb_false _ _) Hnz), Nat.add_0_r; destruct a as [|c]; [reflexivity|].
           rewrite zeros_step, (proj2 (eqb_eq _ _) (Hz c eq_refl)); unfold remaining; cbn [Nat.eqb]; lia. }
      destruct (two_columns F O solve m n P S_ T R f (Z.of_nat (S a)) Y) as [Y1|e1] eqn:E; cbn [bind] in H.
      + replace (Z.of_nat (S a) - 2)%Z with (Z.of_nat a - 1)%Z in H by lia; exact (IH a ltac:(lia) ltac:(lia) Y1 e H).
      + injection H as ->; unfold two_columns in E; destruct (solve _ _ _ _) as [y|e'] eqn:Es in E; [discriminate E|]; injection E as ->; do 4 eexists; exact Es.
  Qed.
  Lemma columns_all_fail Y e : 0 < n -> columns F O eqb solve m n P S_ T R f (passages F O eqb n T) (Z.of_nat n - 1)%Z Y = Err e ->
    exists q k A B, solve q k A B = Err e.
  Proof using eqb_eq HT HR Hb.
    intros Hn; assert (E : passages F O eqb n T = remaining n).
    { unfold passages, remaining, zeros_below; destruct n as [|n']; [lia|]; reflexivity. }
    rewrite E; intros H; exact (columns_fail n ltac:(lia) Y e H).
  Qed.

  (** ** Uniqueness *)
  Hypothesis Hu : refuses_singular F O solve.
  Lemma columns_unique d : d <= n -> border d -> forall Y Y', columns F O eqb solve m n P S_ T R f (remaining d) (Z.of_nat d - 1)%Z Y = Ok Y' ->
    forall V, (forall i j, i < m -> j < n -> total V i j = r0 O) -> (forall i j, i < m -> d <= j -> j < n -> V i j = r0 O) ->
    forall i j, i < m -> j < n -> V i j = r0 O.
  Proof.
    induction d as [d IH] using lt_wf_ind; intros L B Y Y' H V HV Z.
    destruct d as [|k]; [intros i j Hi Hj; apply Z; try assumption; lia|].
    unfold remaining in H; cbn [Nat.eqb] in H; cbn [columns] in H.
    replace (Z.of_nat (S k) - 1)%Z with (Z.of_nat k) in H by lia; rewrite wrap_nat in H.
    replace ((Z.of_nat k - 1 <? - Z.of_nat n)%Z || (Z.of_nat n <=? Z.of_nat k)%Z) with false in H.
    2: { symmetry; apply orb_false_iff; split; [apply Z.ltb_ge; lia|apply Z.leb_gt; lia]. }
    destruct (passage_cases k ltac:(lia)) as [Hz|a -> Hnz Hz].
    - replace (negb (eqb (T k (wrap n (Z.of_nat k - 1))) (r0 O)) && negb (Z.of_nat k =? 0)%Z) with false in H.
      2: { symmetry; destruct k as [|c]; [apply andb_false_r|].
           replace (Z.of_nat (S c) - 1)%Z with (Z.of_nat c) by lia; rewrite wrap_nat, (proj2 (eqb_eq _ _) (Hz c eq_refl)); reflexivity. }
      replace (zeros_below (S k)) with (remaining k) in H.
      2: { destruct k as [|c]; [reflexivity|]; rewrite zeros_step, (proj2 (eqb_eq _ _) (Hz c eq_refl)); unfold remaining; cbn [Nat.eqb]; lia. }
      apply bind_ok in H as (Y1 & E & H).
      apply (IH k ltac:(lia) ltac:(lia) (border_k k Hz) Y1 Y' H V HV).
      intros i j Hi Lj Hj; destruct (Nat.eq_dec j k) as [->|Nj]; [|apply Z; try assumption; lia].
      unfold one_column in E; rewrite !wrap_nat in E; apply bind_ok in E as (y & E & _).
      apply (Hu _ _ _ _ _ E (fun l => V l k)); [|exact Hi]; intros i' Hi'; rewrite Sum_rsum.
      pose proof (HV i' k Hi' Hj) as G; rewrite (one_total k ltac:(lia) Hz) in G.
      rewrite after_zero in G by (intros l c Hl Lc Hc; apply Z; try assumption; lia).
      rewrite <- G; ring.
    - replace (negb (eqb (T (S a) (wrap n (Z.of_nat (S a) - 1))) (r0 O)) && negb (Z.of_nat (S a) =? 0)%Z) with true in H.
      2: { symmetry; apply andb_true_iff; split; apply negb_true_iff; [|apply Z.eqb_neq; lia].
           replace (Z.of_nat (S a) - 1)%Z with (Z.of_nat a) by lia; rewrite wrap_nat; apply eqb_false, Hnz. }
      replace (zeros_below (S (S a))) with (remaining a) in H.
      2: { rewrite zeros_step, (proj2 (eqb_false _ _) Hnz), Nat.add_0_r; destruct a as [|c]; [reflexivity|].
           rewrite zeros_step, (proj2 (eqb_eq _ _) (Hz c eq_refl)); unfold remaining; cbn [Nat.eqb]; lia. }
      apply bind_ok in H as (Y1 & E & H).
      replace (Z.of_nat (S a) - 2)%Z with (Z.of_nat a - 1)%Z in H by lia.
      apply (IH a ltac:(lia) ltac:(lia) (border_a a Hz) Y1 Y' H V HV).
      unfold two_columns in E; rewrite !wrap_nat, !(wrap_a a ltac:(lia)) in E; cbv zeta in E; apply bind_ok in E as (y & E & _).
      pose (v := fun l => if l <? m then V l a else V (l - m)%nat (S a)).
      assert (v1 : forall l, l < m -> v l = V l a) by (intros l Hl; unfold v; rewrite (proj2 (Nat.ltb_lt l m) Hl); reflexivity).
      assert (v2 : forall l, v (m + l)%nat = V l (S a)) by (intros l; unfold v; rewrite (proj2 (Nat.ltb_ge (m + l) m)) by lia; f_equal; lia).
      assert (G : forall i r, i < m -> a <= r < n -> rsum m (fun l => comb (R r a) (T r a) i l * v l) + rsum m (fun l => comb (R r (S a)) (T r (S a)) i l * v (m + l)%nat) = r0 O).
      { intros i r Hi Hr; pose proof (HV i r Hi ltac:(lia)) as G; rewrite (two_total a ltac:(lia) Hz V i r Hr) in G.
        rewrite after_zero in G by (intros l c Hl Lc Hc; apply Z; try assumption; lia).
        rewrite <- G; unfold part.
        rewrite (rsum_ext F O m (fun l => comb (R r a) (T r a) i l * v l) (fun l => comb (R r a) (T r a) i l * V l a)) by (intros l Hl; rewrite v1 by exact Hl; reflexivity).
        rewrite (rsum_ext F O m (fun l => comb (R r (S a)) (T r (S a)) i l * v (m + l)%nat) (fun l => comb (R r (S a)) (T r (S a)) i l * V l (S a))) by (intros l Hl; rewrite v2; reflexivity).
        ring. }
      assert (K : forall l, l < m + m -> v l = r0 O).
      { apply (Hu _ _ _ _ _ E v); intros i Hi; rewrite Sum_rsum; destruct (Nat.lt_ge_cases i m) as [Li|Li].
        - destruct (big_rows a ltac:(lia) v i Li) as [G1 _]; rewrite G1; apply G; [exact Li|lia].
        - destruct (big_rows a ltac:(lia) v (i - m)%nat ltac:(lia)) as [_ G2]; replace (m + (i - m))%nat with i in G2 by lia; rewrite G2; apply G; lia. }
      intros i j Hi Lj Hj; destruct (Nat.eq_dec j a) as [->|Na]; [rewrite <- v1 by exact Hi; apply K; lia|].
      destruct (Nat.eq_dec j (S a)) as [->|Nb]; [rewrite <- v2; apply K; lia|apply Z; try assumption; lia].
  Qed.
  Lemma columns_all_unique Y Y' : 0 < n -> columns F O eqb solve m n P S_ T R f (passages F O eqb n T) (Z.of_nat n - 1)%Z Y = Ok Y' ->
    forall V, (forall i j, i < m -> j < n -> total V i j = r0 O) -> forall i j, i < m -> j < n -> V i j = r0 O.
  Proof.
    intros Hn; assert (E : passages F O eqb n T = remaining n).
    { unfold passages, remaining, zeros_below; destruct n as [|n']; [lia|]; reflexivity. }
    rewrite E; intros H V HV; apply (columns_unique n ltac:(lia) ltac:(intros a c L1 L2; lia) Y Y' H V HV); intros i j _ L1 L2; lia.
  Qed.
End Columns.
