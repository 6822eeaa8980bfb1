(** What a solution of the generalised Sylvester equation is. *)
From Verif Require Import Base Nd SimSpec FirstOrderSpec.

Section SylvesterSpec.
  Variable F : Type.
  Variable O : rops F.
  Local Notation "x + y" := (radd O x y).
  Local Notation "x * y" := (rmul O x y).
  Local Notation Sum := (Sum F O).

  (** An array as a matrix of [r] rows and [c] columns, and its entries; a vector is a column
      and a scalar has one row and one column. *)
  Definition sized (a : nd F) (r c : nat) : Prop :=
    match a with S0 _ => r = 1 /\ c = 1 | V1 n _ => r = n /\ c = 1 | M2 r' c' _ => r = r' /\ c = c' end.
  Definition entries (a : nd F) : nat -> nat -> F :=
    match a with S0 x => fun _ _ => x | V1 _ g => fun i _ => g i | M2 _ _ g => g end.
  (** Entry ([i], [j]) of A X B' + C X D'. *)
  Definition sylvester (m n : nat) (A B C D X : nat -> nat -> F) (i j : nat) : F :=
    Sum m (fun k => Sum n (fun l => A i k * X k l * B j l)) + Sum m (fun k => Sum n (fun l => C i k * X k l * D j l)).
  (** Only the zero matrix gives zero. *)
  Definition nonsingular (m n : nat) (A B C D : nat -> nat -> F) : Prop :=
    forall X, (forall i j, i < m -> j < n -> sylvester m n A B C D X i j = r0 O) ->
    forall i j, i < m -> j < n -> X i j = r0 O.

  (** [scipy.linalg.solve] fails only on a singular matrix. *)
  Definition fails_when_singular (solve : nat -> nat -> (nat -> nat -> F) -> (nat -> nat -> F) -> res (nat -> nat -> F)) : Prop :=
    forall n k A B e, solve n k A B = Err e ->
    exists v, (exists i, i < n /\ v i <> r0 O) /\ forall i, i < n -> Sum n (fun l => A i l * v l) = r0 O.
  (** ... and it fails on every singular matrix. *)
  Definition refuses_singular (solve : nat -> nat -> (nat -> nat -> F) -> (nat -> nat -> F) -> res (nat -> nat -> F)) : Prop :=
    forall n k A B X, solve n k A B = Ok X ->
    forall v, (forall i, i < n -> Sum n (fun l => A i l * v l) = r0 O) -> forall i, i < n -> v i = r0 O.
  (** The real generalised Schur factorisation of two matrices of [n] rows: A = Q AA Z',
      B = Q BB Z', [BB] is triangular, and [AA] but for blocks of two rows. *)
  Record real_schur (n : nat) (A B AA BB Q Z : nat -> nat -> F) : Prop := RealSchur {
    s_Q : orthogonal F O n Q;
    s_Z : orthogonal F O n Z;
    s_A : forall i j, i < n -> j < n -> Sum n (fun k => Sum n (fun l => Q i k * AA k l * Z j l)) = A i j;
    s_B : forall i j, i < n -> j < n -> Sum n (fun k => Sum n (fun l => Q i k * BB k l * Z j l)) = B i j;
    s_BB : forall i j, i < n -> j < i -> BB i j = r0 O;
    s_AA : forall i j, i < n -> S j < i -> AA i j = r0 O;
    s_blocks : forall j, S (S j) < n -> AA (S j) j = r0 O \/ AA (S (S j)) (S j) = r0 O }.
  Definition real_schur_routine (qz : nat -> (nat -> nat -> F) -> (nat -> nat -> F) ->
      res ((nat -> nat -> F) * (nat -> nat -> F) * (nat -> nat -> F) * (nat -> nat -> F))) : Prop :=
    forall n A B AA BB Q Z, qz n A B = Ok (AA, BB, Q, Z) -> real_schur n A B AA BB Q Z.
End SylvesterSpec.
