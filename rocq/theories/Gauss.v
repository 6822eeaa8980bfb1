(** Elimination: a routine that keeps the promises made of [scipy.linalg.solve], over any
    field whose equality can be computed.  Used in concrete cases; no code of /repo is
    modelled here. *)
From Verif Require Import Base Nd NdProofs Mat SimSpec FirstOrderSpec SylvesterSpec.
From Coq Require Import Field_theory.

Section Gauss.
  Variable F : Type.
  Variable O : rops F.
  Variable inv : F -> F.
  Hypothesis FT : is_field O inv.
  Variable eqb : F -> F -> bool.
  Hypothesis eqb_eq : forall x y, eqb x y = true <-> x = y.
  Let RT : is_ring O := F_R FT.
  Let RT' : ring_theory (r0 O) (r1 O) (radd O) (rmul O) (rsub O) (ropp O) eq := F_R FT.
  Add Ring GaussRing : RT'.
  Local Notation "x + y" := (radd O x y).
  Local Notation "x - y" := (rsub O x y).
  Local Notation "x * y" := (rmul O x y).
  Local Notation rsum := (rsum F O).

  (** The entries of a matrix, computed once. *)
  Definition tabulate (n k : nat) (f : mat F) : mat F :=
    let l := map (fun i => map (f i) (seq 0 k)) (seq 0 n) in fun i j => nth j (nth i l []) (r0 O).
  Lemma tabulate_at n k f i j : i < n -> j < k -> tabulate n k f i j = f i j.
  Proof.
    intros Hi Hj; unfold tabulate; cbv zeta.
    rewrite (nth_indep _ [] (map (f 0) (seq 0 k))) by (rewrite map_length, seq_length; exact Hi).
    rewrite (map_nth (fun i => map (f i) (seq 0 k))), seq_nth by exact Hi; cbn [Nat.add].
    rewrite (nth_indep _ _ (f i 0)) by (rewrite map_length, seq_length; exact Hj); rewrite (map_nth (f i)), seq_nth by exact Hj; reflexivity.
  Qed.

  Definition skip (p i : nat) : nat := if i <? p then i else S i.
  Lemma skip_lt p n i : i < n -> skip p i < S n.
  Proof. intros; unfold skip; destruct (i <? p); lia. Qed.
  Lemma skip_onto p n i : p < S n -> i < S n -> i <> p -> exists i', i' < n /\ skip p i' = i.
  Proof.
    intros Hp Hi N; unfold skip; destruct (Nat.lt_ge_cases i p) as [L|L].
    - exists i; split; [lia|]; rewrite (proj2 (Nat.ltb_lt i p) L); reflexivity.
    - exists (i - 1)%nat; split; [lia|]; rewrite (proj2 (Nat.ltb_ge (i - 1) p)) by lia; lia.
  Qed.

  Fixpoint eliminate (n k : nat) (A B : mat F) : res (mat F) :=
    match n with
    | 0 => Ok (fun _ _ => r0 O)
    | S n' =>
        match find (fun p => negb (eqb (A p 0) (r0 O))) (seq 0 (S n')) with
        | None => Err GenericErr
        | Some p =>
            let q i := A (skip p i) 0 * inv (A p 0) in
            do X <- eliminate n' k (tabulate n' n' (fun i j => A (skip p i) (S j) - q i * A p (S j)))
                                   (tabulate n' k (fun i j => B (skip p i) j - q i * B p j));
            Ok (tabulate n k (fun i j => match i with 0 => inv (A p 0) * (B p j - rsum n' (fun l => A p (S l) * X l j)) | S l => X l j end))
        end
    end.

  Lemma head n f : rsum (S n) f = f 0 + rsum n (fun l => f (S l)).
  Proof. change (S n) with (1 + n)%nat; rewrite (rsum_split F O RT), (rsum_one F O RT); reflexivity. Qed.
  Lemma pivot_row a x s : a <> r0 O -> a * (inv a * (x - s)) + s = x.
  Proof.
    intros N; replace (a * (inv a * (x - s))) with ((inv a * a) * (x - s)) by ring; rewrite (Finv_l FT a N); ring.
  Qed.

  Lemma eliminate_ok : linear_routine F O eliminate.
  Proof.
    intros n; induction n as [|n IH]; intros k A B X H i j Hi Hj; [lia|]; cbn [eliminate] in H.
    destruct (find _ _) as [p|] eqn:Ep; [|discriminate H]; apply find_some in Ep as [Ip Np]; apply in_seq in Ip.
    assert (N : A p 0 <> r0 O) by (intros G; apply eqb_eq in G; rewrite G in Np; discriminate Np).
    cbv zeta in H; set (q := fun i => A (skip p i) 0 * inv (A p 0)) in *.
    apply bind_ok in H as (Y & EY & H); injection H as <-.
    assert (K : forall i j, i < n -> j < k -> rsum n (fun l => (A (skip p i) (S l) - q i * A p (S l)) * Y l j) = B (skip p i) j - q i * B p j).
    { intros i' j' Hi' Hj'; pose proof (IH _ _ _ _ EY i' j' Hi' Hj') as G; rewrite tabulate_at in G by assumption; etransitivity; [|exact G].
      apply rsum_ext; intros l Hl; rewrite tabulate_at by assumption; reflexivity. }
    rewrite Sum_rsum, head, tabulate_at by (try exact Hj; lia).
    rewrite (rsum_ext F O n (fun l => A i (S l) * tabulate _ _ _ (S l) j) (fun l => A i (S l) * Y l j)) by (intros l Hl; rewrite tabulate_at by (try exact Hj; lia); reflexivity).
    destruct (Nat.eq_dec i p) as [->|Nip]; [apply pivot_row, N|].
    destruct (skip_onto p n i ltac:(lia) Hi Nip) as (i' & Hi' & Ei).
    specialize (K i' j Hi' Hj); rewrite Ei in K.
    rewrite (rsum_ext F O n _ (fun l => A i (S l) * Y l j - q i' * (A p (S l) * Y l j))) in K by (intros l _; ring).
    rewrite (rsum_sub F O RT), (rsum_mul_l F O RT) in K.
    replace (rsum n (fun l => A i (S l) * Y l j)) with (B i j - q i' * B p j + q i' * rsum n (fun l => A p (S l) * Y l j)) by (rewrite <- K; ring).
    unfold q; rewrite Ei; ring.
  Qed.
  Lemma eliminate_err : fails_when_singular F O eliminate.
  Proof.
    intros n; induction n as [|n IH]; intros k A B e H; cbn [eliminate] in H; [discriminate H|].
    destruct (find _ _) as [p|] eqn:Ep.
    - apply find_some in Ep as [Ip Np]; apply in_seq in Ip.
      assert (N : A p 0 <> r0 O) by (intros G; apply eqb_eq in G; rewrite G in Np; discriminate Np).
      cbv zeta in H; set (q := fun i => A (skip p i) 0 * inv (A p 0)) in *.
      destruct (eliminate n k _ _) as [Y|e'] eqn:E; [discriminate H|]; destruct (IH _ _ _ _ E) as (v & (i0 & Hi0 & Nv) & K).
      exists (fun i => match i with 0 => inv (A p 0) * (r0 O - rsum n (fun l => A p (S l) * v l)) | S l => v l end).
      split; [exists (S i0); split; [lia|exact Nv]|].
      intros i Hi; rewrite Sum_rsum, head; destruct (Nat.eq_dec i p) as [->|Nip]; [apply pivot_row, N|].
      destruct (skip_onto p n i ltac:(lia) Hi Nip) as (i' & Hi' & Ei).
      specialize (K i' Hi'); rewrite Sum_rsum in K.
      rewrite (rsum_ext F O n _ (fun l => A i (S l) * v l - q i' * (A p (S l) * v l))) in K by (intros l Hl; rewrite tabulate_at by assumption; unfold q; rewrite !Ei; ring).
      rewrite (rsum_sub F O RT), (rsum_mul_l F O RT) in K.
      replace (rsum n (fun l => A i (S l) * v l)) with (r0 O + q i' * rsum n (fun l => A p (S l) * v l)) by (rewrite <- K; ring).
      unfold q; rewrite Ei; ring.
    - exists (fun i => match i with 0 => r1 O | S _ => r0 O end); split; [exists 0; split; [lia|exact (F_1_neq_0 FT)]|].
      intros i Hi; rewrite Sum_rsum, head, (rsum_all_zero F O RT n) by (intros l _; ring).
      pose proof (find_none _ _ Ep i ltac:(apply in_seq; lia)) as G; apply negb_false_iff, eqb_eq in G; rewrite G; ring.
  Qed.
  Lemma eliminate_refuses : refuses_singular F O eliminate.
  Proof.
    intros n; induction n as [|n IH]; intros k A B X H v K i Hi; [lia|]; cbn [eliminate] in H.
    destruct (find _ _) as [p|] eqn:Ep; [|discriminate H]; apply find_some in Ep as [Ip Np]; apply in_seq in Ip.
    assert (N : A p 0 <> r0 O) by (intros G; apply eqb_eq in G; rewrite G in Np; discriminate Np).
    cbv zeta in H; set (q := fun i => A (skip p i) 0 * inv (A p 0)) in *.
    apply bind_ok in H as (Y & EY & _).
    pose proof (K p ltac:(lia)) as Kp; rewrite Sum_rsum, head in Kp.
    assert (Z : forall l, l < n -> v (S l) = r0 O).
    { apply (IH _ _ _ _ EY (fun l => v (S l))); intros i' Hi'.
      rewrite Sum_rsum, (rsum_ext F O n _ (fun l => A (skip p i') (S l) * v (S l) - q i' * (A p (S l) * v (S l)))) by (intros l Hl; rewrite tabulate_at by assumption; unfold q; ring).
      rewrite (rsum_sub F O RT), (rsum_mul_l F O RT).
      pose proof (K (skip p i') (skip_lt p n i' Hi')) as Ki; rewrite Sum_rsum, head in Ki.
      set (s := rsum n (fun l => A (skip p i') (S l) * v (S l))) in *; set (t := rsum n (fun l => A p (S l) * v (S l))) in *.
      assert (Q : q i' * A p 0 = A (skip p i') 0).
      { unfold q; replace (A (skip p i') 0 * inv (A p 0) * A p 0) with (A (skip p i') 0 * (inv (A p 0) * A p 0)) by ring; rewrite (Finv_l FT _ N); ring. }
      transitivity ((A (skip p i') 0 * v 0 + s) - q i' * (A p 0 * v 0 + t)); [|rewrite Ki, Kp; ring].
      rewrite <- Q; ring. }
    rewrite (rsum_all_zero F O RT n) in Kp by (intros l Hl; rewrite Z by exact Hl; ring).
    destruct i as [|l]; [|apply Z; lia].
    transitivity (inv (A p 0) * (A p 0 * v 0 + r0 O)); [|rewrite Kp; ring].
    transitivity ((inv (A p 0) * A p 0) * v 0); [rewrite (Finv_l FT _ N); ring|ring].
  Qed.
End Gauss.
