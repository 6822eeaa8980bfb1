(** The generalised Sylvester equation: property C43. *)
From Verif Require Import Base Nd NdProofs NdInst Mat MatProofs SimSpec FirstOrder FirstOrderSpec FirstOrderExample Gauss
  Sylvester SylvesterSpec SylvesterProofs SylvesterProofs2 SylvesterExample.
From Coq Require Import ZArith QArith Qcanon.
Local Open Scope list_scope.
Local Open Scope nat_scope.

(** ** C43: the generalised Sylvester solver returns a solution *)

(** Whenever the system is nonsingular the solver returns an array of the shape of E, whose
    entries satisfy A X B' + C X D' = E, and it is the only solution.  The QZ iteration has to
    converge on the two pairs; it is not used when there is one row or one column. *)
Theorem C43 :
  forall (F : Type) (O : rops F) (eqb : F -> F -> bool)
    (qz : nat -> mat F -> mat F -> res (mat F * mat F * mat F * mat F)) (solve : nat -> nat -> mat F -> mat F -> res (mat F)) (nan : F),
  is_ring O -> (forall x y, eqb x y = true <-> x = y) ->
  real_schur_routine F O qz -> linear_routine F O solve -> fails_when_singular F O solve ->
  forall (m n : nat) (A B C D E : nd F), 0 < m -> 0 < n ->
  sized F A m m -> sized F B n n -> sized F C m m -> sized F D n n -> sized F E m n ->
  (1 < m -> 1 < n -> (exists p, qz m (entries F A) (entries F C) = Ok p) /\ (exists p, qz n (entries F D) (entries F B) = Ok p)) ->
  nonsingular F O m n (entries F A) (entries F B) (entries F C) (entries F D) ->
  exists X, generalized_sylvester F O eqb qz solve nan A B C D E = Ok X /\ shape F X = shape F E /\
    (forall i j, i < m -> j < n -> sylvester F O m n (entries F A) (entries F B) (entries F C) (entries F D) (entries F X) i j = entries F E i j) /\
    (forall Y, (forall i j, i < m -> j < n -> sylvester F O m n (entries F A) (entries F B) (entries F C) (entries F D) Y i j = entries F E i j) ->
       forall i j, i < m -> j < n -> Y i j = entries F X i j).
Proof.
  intros F O eqb qz solve nan RT He Hq Hs Hf m n A B C D E Hm Hn SA SB SC SD SE Q N.
  pose proof (sylvester_spec F O RT eqb He qz Hq solve Hs Hf nan m n A B C D E Hm Hn SA SB SC SD SE Q) as G.
  destruct (generalized_sylvester F O eqb qz solve nan A B C D E) as [X|e].
  - destruct G as [G1 G2]; exists X; split; [reflexivity|]; split; [exact G1|]; split; [exact G2|].
    intros Y HY; pose proof (N (fun i j => rsub O (Y i j) (entries F X i j))) as K.
    assert (K0 : forall i j, i < m -> j < n -> rsub O (Y i j) (entries F X i j) = r0 O).
    { apply K; intros i j Hi Hj; transitivity (rsub O (sylvester F O m n (entries F A) (entries F B) (entries F C) (entries F D) Y i j) (sylvester F O m n (entries F A) (entries F B) (entries F C) (entries F D) (entries F X) i j)).
      - apply (sylvester_sub F O RT).
      - rewrite HY, G2 by assumption; apply (cancel F O RT). }
    intros i j Hi Hj; specialize (K0 i j Hi Hj); apply (sub_zero F O RT), K0.
  - exfalso; destruct G as (X & (i & j & Hi & Hj & Nz) & K); apply Nz, (N X K i j Hi Hj).
Qed.
Print Assumptions C43.

(** Whatever is returned solves the equation, also when the system is singular. *)
Theorem C43_sound :
  forall (F : Type) (O : rops F) (eqb : F -> F -> bool)
    (qz : nat -> mat F -> mat F -> res (mat F * mat F * mat F * mat F)) (solve : nat -> nat -> mat F -> mat F -> res (mat F)) (nan : F),
  is_ring O -> (forall x y, eqb x y = true <-> x = y) ->
  real_schur_routine F O qz -> linear_routine F O solve -> fails_when_singular F O solve ->
  forall (m n : nat) (A B C D E X : nd F), 0 < m -> 0 < n ->
  sized F A m m -> sized F B n n -> sized F C m m -> sized F D n n -> sized F E m n ->
  generalized_sylvester F O eqb qz solve nan A B C D E = Ok X ->
  shape F X = shape F E /\
  forall i j, i < m -> j < n -> sylvester F O m n (entries F A) (entries F B) (entries F C) (entries F D) (entries F X) i j = entries F E i j.
Proof.
  intros F O eqb qz solve nan RT He Hq Hs Hf m n A B C D E X Hm Hn SA SB SC SD SE H.
  pose proof (sylvester_spec F O RT eqb He qz Hq solve Hs Hf nan m n A B C D E Hm Hn SA SB SC SD SE
    (sylvester_factors F O eqb qz solve nan m n A B C D E X SA SB SC SD SE H)) as G; rewrite H in G; exact G.
Qed.
Print Assumptions C43_sound.

(** When the linear solver also fails on every singular matrix, as it is documented to do,
    the equation is solved exactly when it is nonsingular. *)
Theorem C43_iff :
  forall (F : Type) (O : rops F) (eqb : F -> F -> bool)
    (qz : nat -> mat F -> mat F -> res (mat F * mat F * mat F * mat F)) (solve : nat -> nat -> mat F -> mat F -> res (mat F)) (nan : F),
  is_ring O -> (forall x y, eqb x y = true <-> x = y) ->
  real_schur_routine F O qz -> linear_routine F O solve -> fails_when_singular F O solve -> refuses_singular F O solve ->
  forall (m n : nat) (A B C D E : nd F), 0 < m -> 0 < n ->
  sized F A m m -> sized F B n n -> sized F C m m -> sized F D n n -> sized F E m n ->
  (1 < m -> 1 < n -> (exists p, qz m (entries F A) (entries F C) = Ok p) /\ (exists p, qz n (entries F D) (entries F B) = Ok p)) ->
  (exists X, generalized_sylvester F O eqb qz solve nan A B C D E = Ok X) <->
  nonsingular F O m n (entries F A) (entries F B) (entries F C) (entries F D).
Proof.
  intros F O eqb qz solve nan RT He Hq Hs Hf Hu m n A B C D E Hm Hn SA SB SC SD SE Q; split.
  - intros [X H]; exact (sylvester_refuses F O RT eqb He qz Hq solve nan Hu m n A B C D E X Hm Hn SA SB SC SD SE H).
  - intros N; destruct (C43 F O eqb qz solve nan RT He Hq Hs Hf m n A B C D E Hm Hn SA SB SC SD SE Q N) as (X & H & _); exists X; exact H.
Qed.
Print Assumptions C43_iff.

(** Arrays whose sizes do not fit are a ValueError. *)
Theorem C43_sizes :
  forall (F : Type) (O : rops F) (eqb : F -> F -> bool)
    (qz : nat -> mat F -> mat F -> res (mat F * mat F * mat F * mat F)) (solve : nat -> nat -> mat F -> mat F -> res (mat F)) (nan : F)
    (A B C D E : nd F),
  ~ (exists m n, sized F A m m /\ sized F B n n /\ sized F C m m /\ sized F D n n /\ sized F E m n) ->
  generalized_sylvester F O eqb qz solve nan A B C D E = Err ValueErr.
Proof.
  intros F O eqb qz solve nan A B C D E H; unfold generalized_sylvester.
  destruct (ensure2_some F A) as (ma & na & a & -> & SA), (ensure2_some F B) as (mb & nb & b & -> & SB), (ensure2_some F C) as (mc & nc & c & -> & SC),
    (ensure2_some F D) as (md & nd_ & d & -> & SD), (ensure2_some F E) as (me & ne & e & -> & SE).
  destruct (Nat.eqb_spec ma mc) as [->|]; [|reflexivity]; destruct (Nat.eqb_spec na nc) as [->|]; [|reflexivity]; cbn [andb negb].
  destruct (Nat.eqb_spec mc nc) as [->|]; [|reflexivity]; cbn [negb].
  destruct (Nat.eqb_spec mb md) as [->|]; [|reflexivity]; destruct (Nat.eqb_spec nb nd_) as [->|]; [|reflexivity]; cbn [andb negb].
  destruct (Nat.eqb_spec md nd_) as [->|]; [|reflexivity]; cbn [negb].
  destruct (Nat.eqb_spec nc me) as [->|]; [|reflexivity]; destruct (Nat.eqb_spec nd_ ne) as [->|]; [|reflexivity]; cbn [negb orb].
  exfalso; apply H; exists me, ne; auto.
Qed.
Print Assumptions C43_sizes.

(** The factors: one block of two columns and one of one column on the right, both pairs
    rotated. *)
Local Notation q a := (Q2Qc a) (only parsing).
Definition turn : table := [[q (3#5); q (4#5)]; [q (-4#5); q (3#5)]].
Definition turn3 : table := [[q (3#5); q (4#5); q 0]; [q 0; q 0; q 1]; [q (-4#5); q (3#5); q 0]].
Definition swap3 : table := [[q 0; q 1; q 0]; [q 1; q 0; q 0]; [q 0; q 0; q 1]].
Definition left_factors : table * table * table * table :=
  ([[q 2; q 1]; [q 0; q 3]], [[q 1; q 1]; [q 0; q 1]], turn, [[q 0; q 1]; [q 1; q 0]]).
Definition right_factors : table * table * table * table :=
  ([[q 1; q 2; q 1]; [q 0; q 1; q (-2)]; [q 0; q 3; q 1]], [[q 1; q 1; q 0]; [q 0; q 1; q 0]; [q 0; q 0; q 2]], turn3, swap3).
Definition stored (n m : nat) (A : mat Qc) : mat Qc := tabulate Qc QO n m A.
Definition ex_A : mat Qc := let '(P, S_, Q, Z) := left_factors in stored 2 2 (sums 2 (mx Q) (mx P) (mx Z)).
Definition ex_C : mat Qc := let '(P, S_, Q, Z) := left_factors in stored 2 2 (sums 2 (mx Q) (mx S_) (mx Z)).
Definition ex_D : mat Qc := let '(T, R, Q, Z) := right_factors in stored 3 3 (sums 3 (mx Q) (mx T) (mx Z)).
Definition ex_B : mat Qc := let '(T, R, Q, Z) := right_factors in stored 3 3 (sums 3 (mx Q) (mx R) (mx Z)).
Definition ex_E : mat Qc := mx [[q 1; q 2; q 3]; [q (-1); q 0; q 5]].
Definition ex_qz := real_qz_with [left_factors; right_factors].
(** The inverse of the linear map, by elimination on its matrix of six rows. *)
Definition ex_inverse : mat Qc :=
  match qsolve 6 6 (fun r c => coefficient ex_A ex_B ex_C ex_D (r / 3) (r mod 3) (c / 3) (c mod 3)) (mid Qc QO) with Ok X => stored 6 6 X | Err _ => mid Qc QO end.
Example C43_nonvacuous :
  is_ring QO /\ (forall x y, same x y = true <-> x = y) /\ real_schur_routine Qc QO ex_qz /\ linear_routine Qc QO qsolve /\ fails_when_singular Qc QO qsolve /\ refuses_singular Qc QO qsolve /\
  (exists p, ex_qz 2 ex_A ex_C = Ok p) /\ (exists p, ex_qz 3 ex_D ex_B = Ok p) /\ nonsingular Qc QO 2 3 ex_A ex_B ex_C ex_D /\
  mx (fst (fst (fst right_factors))) 2 1 <> 0%Qc.
Proof.
  split; [exact Q_ring|]; split; [exact same_iff|]; split; [apply real_qz_with_ok|]; split; [exact qsolve_ok|]; split; [exact qsolve_err|]; split; [exact qsolve_refuses|].
  split; [|split; [|split]].
  - assert (G : match ex_qz 2 ex_A ex_C with Ok _ => true | Err _ => false end = true) by (vm_compute; reflexivity).
    destruct (ex_qz 2 ex_A ex_C) as [p|e]; [exists p; reflexivity|discriminate G].
  - assert (G : match ex_qz 3 ex_D ex_B with Ok _ => true | Err _ => false end = true) by (vm_compute; reflexivity).
    destruct (ex_qz 3 ex_D ex_B) as [p|e]; [exists p; reflexivity|discriminate G].
  - apply (left_inverse_ok 2 3 ex_A ex_B ex_C ex_D (let X := ex_inverse in fun i j k l => X (3 * i + j)%nat (3 * k + l)%nat)); vm_compute; reflexivity.
  - apply same_neq; vm_compute; reflexivity.
Qed.
(** The same on one row, with a vector. *)
Example C43_vector :
  match generalized_sylvester Qc QO same ex_qz qsolve (q 7) (M2 2 2 ex_A) (S0 (q 2)) (M2 2 2 ex_C) (S0 (q 3)) (V1 2 (fun i => if i =? 0 then q 1 else q 2)) with
  | Ok (V1 2 x) => same (sylvester Qc QO 2 1 ex_A (fun _ _ => q 2) ex_C (fun _ _ => q 3) (fun i _ => x i) 1 0) (q 2)
  | _ => false
  end = true.
Proof. vm_compute; reflexivity. Qed.

(** Without columns there is a division by zero, although nothing is singular. *)
Theorem C43_empty :
  forall (F : Type) (O : rops F) (eqb : F -> F -> bool)
    (qz : nat -> mat F -> mat F -> res (mat F * mat F * mat F * mat F)) (solve : nat -> nat -> mat F -> mat F -> res (mat F)) (nan : F) (m : nat) (A B C D E : mat F),
  1 < m -> generalized_sylvester F O eqb qz solve nan (M2 m m A) (M2 0 0 B) (M2 m m C) (M2 0 0 D) (M2 m 0 E) = Err GenericErr.
Proof.
  intros F O eqb qz solve nan m A B C D E H; unfold generalized_sylvester, schur_method; cbn [ensure2]; rewrite !Nat.eqb_refl; cbn [andb negb orb Nat.eqb].
  rewrite (proj2 (Nat.eqb_neq m 1)) by lia; reflexivity.
Qed.
Print Assumptions C43_empty.
