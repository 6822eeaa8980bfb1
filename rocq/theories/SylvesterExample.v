(** A concrete Sylvester equation with a block of two columns and one of one column, after
    rotations. *)
From Verif Require Import Base Nd NdProofs NdInst Mat MatProofs SimSpec FirstOrder FirstOrderSpec FirstOrderExample Gauss Sylvester SylvesterSpec.
From Coq Require Import ZArith QArith Qcanon.
Local Open Scope list_scope.
Local Open Scope nat_scope.

Lemma same_iff x y : same x y = true <-> x = y.
Proof. split; [apply same_eq|intros ->; unfold same; apply Qeq_bool_iff; reflexivity]. Qed.
Definition qsolve := eliminate Qc QO Qcinv same.
Lemma qsolve_ok : linear_routine Qc QO qsolve.
Proof. exact (eliminate_ok Qc QO Qcinv Q_field same same_iff). Qed.
Lemma qsolve_err : fails_when_singular Qc QO qsolve.
Proof. exact (eliminate_err Qc QO Qcinv Q_field same same_iff). Qed.
Lemma qsolve_refuses : refuses_singular Qc QO qsolve.
Proof. exact (eliminate_refuses Qc QO Qcinv Q_field same same_iff). Qed.

(** Factors are looked for in a list and checked. *)
Definition sums (n : nat) (Q P Z : mat Qc) : mat Qc := fun i j => rsum Qc QO n (fun k => rsum Qc QO n (fun l => Q i k * P k l * Z j l)%Qc).
Definition split_blocks (n : nat) (A : mat Qc) : bool := forallb (fun j => same (A (S j) j) 0%Qc || same (A (S (S j)) (S j)) 0%Qc) (seq 0 (n - 2)).
Definition real_check (n : nat) (A B : mat Qc) (t : table * table * table * table) : bool :=
  let '(AA, BB, Q, Z) := t in
  orth n (mx Q) && orth n (mx Z) && agree n n (sums n (mx Q) (mx AA) (mx Z)) A && agree n n (sums n (mx Q) (mx BB) (mx Z)) B &&
  lower 0 n n (mx BB) && lower 1 n n (mx AA) && split_blocks n (mx AA).
Definition real_qz_with (c : list (table * table * table * table)) (n : nat) (A B : mat Qc) : res (mat Qc * mat Qc * mat Qc * mat Qc) :=
  match find (real_check n A B) c with Some t => let '(AA, BB, Q, Z) := t in Ok (mx AA, mx BB, mx Q, mx Z) | None => Err GenericErr end.
Lemma real_qz_with_ok c : real_schur_routine Qc QO (real_qz_with c).
Proof.
  intros n A B AA BB Q Z H; unfold real_qz_with in H; destruct (find _ c) as [[[[aa bb] q] z]|] eqn:E; [|discriminate H]; injection H as <- <- <- <-.
  apply find_some in E as [_ E]; cbn [real_check] in E; do 6 (apply andb_true_iff in E as [E ?]).
  constructor.
  - apply orth_ok; assumption.
  - apply orth_ok; assumption.
  - intros i j Hi Hj; match goal with G : agree n n (sums n _ (mx aa) _) _ = true |- _ => apply (agree_eq _ _ _ _ G i j Hi Hj) end.
  - intros i j Hi Hj; match goal with G : agree n n (sums n _ (mx bb) _) _ = true |- _ => apply (agree_eq _ _ _ _ G i j Hi Hj) end.
  - intros i j Hi Hj; match goal with G : lower 0 n n _ = true |- _ => apply (lower_ok _ _ _ _ G i j); lia end.
  - intros i j Hi Hj; match goal with G : lower 1 n n _ = true |- _ => apply (lower_ok _ _ _ _ G i j); lia end.
  - intros j Hj; match goal with G : split_blocks n _ = true |- _ => unfold split_blocks in G; rewrite forallb_forall in G; specialize (G j ltac:(apply in_seq; lia)); apply orb_true_iff in G as [G|G]; [left|right]; apply same_eq, G end.
Qed.

(** A left inverse of the linear map shows that it is nonsingular. *)
Definition coefficient (A B C D : mat Qc) (i j k l : nat) : Qc := (A i k * B j l + C i k * D j l)%Qc.
Definition left_inverse (m n : nat) (A B C D : mat Qc) (L : nat -> nat -> nat -> nat -> Qc) : bool :=
  forallb (fun i => forallb (fun j => forallb (fun k => forallb (fun l =>
    same (rsum Qc QO m (fun i' => rsum Qc QO n (fun j' => L i j i' j' * coefficient A B C D i' j' k l)%Qc)) (if (i =? k) && (j =? l) then 1%Qc else 0%Qc))
    (seq 0 n)) (seq 0 m)) (seq 0 n)) (seq 0 m).
Lemma coefficient_sum m n A B C D X i j : sylvester Qc QO m n A B C D X i j = rsum Qc QO m (fun k => rsum Qc QO n (fun l => coefficient A B C D i j k l * X k l)%Qc).
Proof.
  unfold sylvester; rewrite !Sum_rsum, <- (rsum_add Qc QO Q_ring); apply rsum_ext; intros k _.
  rewrite !Sum_rsum, <- (rsum_add Qc QO Q_ring); apply rsum_ext; intros l _; unfold coefficient; cbn; ring.
Qed.
Lemma left_inverse_ok m n A B C D L : left_inverse m n A B C D L = true -> nonsingular Qc QO m n A B C D.
Proof.
  intros H X K i j Hi Hj; unfold left_inverse in H.
  rewrite forallb_forall in H; specialize (H i ltac:(apply in_seq; lia)); cbv beta in H.
  rewrite forallb_forall in H; specialize (H j ltac:(apply in_seq; lia)); cbv beta in H.
  assert (G : forall k l, k < m -> l < n -> rsum Qc QO m (fun i' => rsum Qc QO n (fun j' => L i j i' j' * coefficient A B C D i' j' k l)%Qc) = if (i =? k) && (j =? l) then 1%Qc else 0%Qc).
  { intros k l Hk Hl; rewrite forallb_forall in H; specialize (H k ltac:(apply in_seq; lia)); cbv beta in H.
    rewrite forallb_forall in H; specialize (H l ltac:(apply in_seq; lia)); apply same_eq, H. }
  transitivity (rsum Qc QO m (fun k => rsum Qc QO n (fun l => (if (i =? k) && (j =? l) then 1%Qc else 0%Qc) * X k l)%Qc)).
  { rewrite (rsum_single Qc QO Q_ring m i) by (try exact Hi; intros k _ Nk; apply (rsum_all_zero Qc QO Q_ring); intros l _; rewrite (proj2 (Nat.eqb_neq i k)) by congruence; cbn; ring).
    rewrite (rsum_single Qc QO Q_ring n j) by (try exact Hj; intros l _ Nl; rewrite (proj2 (Nat.eqb_neq j l)) by congruence; rewrite andb_false_r; cbn; ring).
    rewrite !Nat.eqb_refl; cbn; ring. }
  transitivity (rsum Qc QO m (fun i' => rsum Qc QO n (fun j' => L i j i' j' * sylvester Qc QO m n A B C D X i' j')%Qc)).
  2: { apply (rsum_all_zero Qc QO Q_ring); intros i' Hi'; apply (rsum_all_zero Qc QO Q_ring); intros j' Hj'; rewrite K by assumption; cbn; ring. }
  transitivity (rsum Qc QO m (fun k => rsum Qc QO n (fun l => rsum Qc QO m (fun i' => rsum Qc QO n (fun j' => L i j i' j' * (coefficient A B C D i' j' k l * X k l))%Qc)))).
  { apply rsum_ext; intros k Hk; apply rsum_ext; intros l Hl; rewrite <- G by assumption.
    change (rmul QO (rsum Qc QO m (fun i' => rsum Qc QO n (fun j' => L i j i' j' * coefficient A B C D i' j' k l)%Qc)) (X k l) =
      rsum Qc QO m (fun i' => rsum Qc QO n (fun j' => (L i j i' j' * (coefficient A B C D i' j' k l * X k l))%Qc))).
    rewrite <- (rsum_mul_r Qc QO Q_ring); apply rsum_ext; intros i' _; rewrite <- (rsum_mul_r Qc QO Q_ring); apply rsum_ext; intros j' _; cbn; ring. }
  rewrite (rsum_ext Qc QO m (fun i' => rsum Qc QO n (fun j' => (L i j i' j' * sylvester Qc QO m n A B C D X i' j')%Qc))
    (fun i' => rsum Qc QO n (fun j' => rsum Qc QO m (fun k => rsum Qc QO n (fun l => (L i j i' j' * (coefficient A B C D i' j' k l * X k l))%Qc))))).
  2: { intros i' _; apply rsum_ext; intros j' _; rewrite coefficient_sum.
       rewrite <- (rsum_mul_l Qc QO Q_ring); apply rsum_ext; intros k _; rewrite <- (rsum_mul_l Qc QO Q_ring); reflexivity. }
  rewrite (rsum_ext Qc QO m _ (fun k => rsum Qc QO m (fun i' => rsum Qc QO n (fun l => rsum Qc QO n (fun j' => (L i j i' j' * (coefficient A B C D i' j' k l * X k l))%Qc))))).
  2: { intros k _; apply (rsum_swap Qc QO Q_ring). }
  rewrite (rsum_swap Qc QO Q_ring); apply rsum_ext; intros i' _.
  rewrite (rsum_ext Qc QO m _ (fun k => rsum Qc QO n (fun j' => rsum Qc QO n (fun l => (L i j i' j' * (coefficient A B C D i' j' k l * X k l))%Qc)))).
  2: { intros k _; apply (rsum_swap Qc QO Q_ring). }
  apply (rsum_swap Qc QO Q_ring).
Qed.
