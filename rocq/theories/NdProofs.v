(** Sums and arrays. *)
From Verif Require Import Base Nd SimSpec.
From Coq Require Import Ring Permutation.

Section NdProofs.
  Variable F : Type.
  Variable O : rops F.
  Variable RT : is_ring O.
  Let RT' : ring_theory (r0 O) (r1 O) (radd O) (rmul O) (rsub O) (ropp O) eq := RT.
  Add Ring Fring : RT'.
  Declare Scope F_scope.
  Delimit Scope F_scope with F.
  Infix "+" := (radd O) : F_scope. Infix "*" := (rmul O) : F_scope. Infix "-" := (rsub O) : F_scope.
  Notation "- x" := (ropp O x) : F_scope.
  Notation "'z'" := (r0 O).
  Notation rsum := (Nd.rsum F O).

  Lemma Sum_rsum n f : Sum F O n f = rsum n f.
  Proof. induction n as [|n IH]; [reflexivity|]; cbn [Sum Nd.rsum]; rewrite IH; reflexivity. Qed.

  Lemma rsum_ext n f g : (forall i, i < n -> f i = g i) -> rsum n f = rsum n g.
  Proof.
    induction n as [|n IH]; intros H; cbn [Nd.rsum]; [reflexivity|].
    rewrite IH by (intros i Hi; apply H; lia); rewrite (H n) by lia; reflexivity.
  Qed.
  Lemma rsum_add n f g : rsum n (fun i => f i + g i)%F = (rsum n f + rsum n g)%F.
  Proof. induction n as [|n IH]; cbn [Nd.rsum]; [ring|rewrite IH; ring]. Qed.
  Lemma rsum_sub n f g : rsum n (fun i => f i - g i)%F = (rsum n f - rsum n g)%F.
  Proof. induction n as [|n IH]; cbn [Nd.rsum]; [ring|rewrite IH; ring]. Qed.
  Lemma rsum_opp n f : rsum n (fun i => - f i)%F = (- rsum n f)%F.
  Proof. induction n as [|n IH]; cbn [Nd.rsum]; [ring|rewrite IH; ring]. Qed.
  Lemma rsum_mul_l n a f : rsum n (fun i => a * f i)%F = (a * rsum n f)%F.
  Proof. induction n as [|n IH]; cbn [Nd.rsum]; [ring|rewrite IH; ring]. Qed.
  Lemma rsum_mul_r n a f : rsum n (fun i => f i * a)%F = (rsum n f * a)%F.
  Proof. induction n as [|n IH]; cbn [Nd.rsum]; [ring|rewrite IH; ring]. Qed.
  Lemma rsum_zero n : rsum n (fun _ => z) = z.
  Proof. induction n as [|n IH]; cbn [Nd.rsum]; [reflexivity|rewrite IH; ring]. Qed.
  Lemma rsum_all_zero n f : (forall i, i < n -> f i = z) -> rsum n f = z.
  Proof. intros H; rewrite (rsum_ext n f (fun _ => z) H); apply rsum_zero. Qed.
  Lemma rsum_swap n m f : rsum n (fun i => rsum m (fun j => f i j)) = rsum m (fun j => rsum n (fun i => f i j)).
  Proof.
    induction n as [|n IH]; cbn [Nd.rsum]; [symmetry; apply rsum_zero|].
    rewrite IH, <- rsum_add; reflexivity.
  Qed.
  Lemma rsum_single n k f : k < n -> (forall i, i < n -> i <> k -> f i = z) -> rsum n f = f k.
  Proof.
    induction n as [|n IH]; intros Hk H; [lia|]; cbn [Nd.rsum].
    destruct (Nat.eq_dec k n) as [->|N].
    - rewrite rsum_all_zero by (intros i Hi; apply H; lia); ring.
    - rewrite IH by (try lia; intros i Hi Ne; apply H; lia); rewrite (H n) by lia; ring.
  Qed.
  Lemma rsum_one f : rsum 1 f = f 0.
  Proof. cbn [Nd.rsum]; ring. Qed.
  Lemma rsum_split n m f : rsum (n + m) f = (rsum n f + rsum m (fun i => f (n + i)%nat))%F.
  Proof.
    induction m as [|m IH]; cbn [Nd.rsum]; [rewrite Nat.add_0_r; ring|].
    rewrite Nat.add_succ_r; cbn [Nd.rsum]; rewrite IH; ring.
  Qed.

  Fixpoint lsum (l : list F) : F := match l with [] => z | x :: l' => radd O x (lsum l') end.
  Lemma lsum_app l l' : lsum (l ++ l') = (lsum l + lsum l')%F.
  Proof. induction l as [|x l IH]; cbn [lsum app]; [ring|rewrite IH; ring]. Qed.
  Lemma rsum_lsum n f : rsum n f = lsum (map f (seq 0 n)).
  Proof.
    induction n as [|n IH]; [reflexivity|]; cbn [Nd.rsum].
    rewrite seq_S, map_app, lsum_app; cbn [map lsum Nat.add]; rewrite IH; ring.
  Qed.
  Lemma lsum_perm l l' : Permutation l l' -> lsum l = lsum l'.
  Proof. induction 1; cbn [lsum]; try congruence; ring. Qed.
  Lemma map_nth_seq {A} (d : A) p : map (fun i => nth i p d) (seq 0 (List.length p)) = p.
  Proof.
    induction p as [|x p IH]; [reflexivity|]; cbn [List.length seq map nth]; f_equal.
    rewrite <- seq_shift, map_map; exact IH.
  Qed.
  (** A sum over all variables in the order of a permutation. *)
  Lemma rsum_perm n p f : Permutation p (seq 0 n) -> rsum n f = rsum n (fun i => f (nth i p 0)).
  Proof.
    intros P; rewrite !rsum_lsum.
    assert (L : List.length p = n) by (rewrite (Permutation_length P), seq_length; reflexivity).
    assert (E : map (fun i => nth i p 0) (seq 0 n) = p) by (rewrite <- L; apply map_nth_seq).
    rewrite <- (map_map (fun i => nth i p 0) f), E.
    apply lsum_perm, Permutation_map, Permutation_sym, P.
  Qed.
End NdProofs.
