(** Paths that do not explode, and those that solve the linearised model. *)
From Verif Require Import Base Nd Mat IndexingSpec SimSpec FirstOrder FirstOrderSpec.

Section StableSpec.
  Variable F : Type.
  Variable O : rops F.
  Variable le : F -> F -> Prop.

  (** Every number is below some natural number. *)
  Definition archimedean : Prop := forall x, exists n, le x (number O n).

  (** A sequence of values of the first [n] variables (or shocks) that never leaves some
      interval around zero. *)
  Definition bounded (n : nat) (y : nat -> nat -> F) : Prop :=
    exists B, forall t v, v < n -> le (ropp O B) (y t v) /\ le (y t v) B.

  (** A sequence of values of the first [n] variables that comes as close to zero as one
      wishes, and stays there. *)
  Definition vanishes (n : nat) (y : nat -> nat -> F) : Prop :=
    forall e, ~ le e (r0 O) -> exists T, forall t v, T <= t -> v < n -> le (ropp O e) (y t v) /\ le (y t v) e.

  (** A path [y], of deviations from the steady state, that solves the linearised equations
      after the values [lag] and the shocks [u] of the first period, no shocks being
      expected later. *)
  Definition path_solves (lls : list (list Z)) (k : nat) (J : nat -> nat -> F) (lag u : nat -> F) (y : nat -> nat -> F) : Prop :=
    (forall i, i < List.length lls -> linear_equation F O lls k J lag (y 0) (y 1) u i) /\
    (forall t i, i < List.length lls -> linear_equation F O lls k J (y t) (y (S t)) (y (S (S t))) (fun _ => r0 O) i).
  (** A path that follows a rule: first after [lag] and [u], then without shocks. *)
  Definition path_follows (g : rule F) (lag u : nat -> F) (y : nat -> nat -> F) : Prop :=
    decides F O g lag u (y 0) /\ forall t, decides F O g (y t) (fun _ => r0 O) (y (S t)).

  (** A path that follows a rule while the shocks [u t] arrive in every period [t]. *)
  Definition path_shocked (g : rule F) (lag : nat -> F) (u : nat -> nat -> F) (y : nat -> nat -> F) : Prop :=
    decides F O g lag (u 0) (y 0) /\ forall t, decides F O g (y t) (u (S t)) (y (S t)).

  (** What scipy says of the quotients of the ordered QZ factorisation: a quotient that is a
      (finite) number has a denominator other than zero. *)
  Definition finite_quotients (ordqz : nat -> (nat -> nat -> F) -> (nat -> nat -> F) -> res (schur F)) : Prop :=
    forall n A B q, ordqz n A B = Ok q -> forall j re im, j < n -> nth j (q_eig q) Nan = Fin re im -> q_T q j j <> r0 O.
End StableSpec.
