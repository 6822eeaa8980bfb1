(** What a filter should do with its data: each variable reads the column with its name,
    and the likelihood is built from the errors of the best linear predictions. *)
From Verif Require Import Base Nd SimSpec MomentsSpec.
Local Open Scope list_scope.

(** Column [i] carries the name of the [j]-th observed variable. *)
Definition carries (labels obs : list string) (i j : nat) : Prop :=
  exists x, nth_error labels i = Some x /\ nth_error obs j = Some x.

Section FiltersSpec.
  Variable F : Type.
  Variable O : rops F.

  (** In the table [kept] the [j]-th column belongs to the [j]-th observed variable: it is
      the column of [data] with the variable's name. *)
  Definition by_label (labels obs : list string) (r : nat) (data kept : nat -> nat -> F) : Prop :=
    forall i j, carries labels obs i j -> forall t, t < r -> kept t j = data t i.

  (** States x_{t+1} = T x_t + e_t with covariances P0 of x_0 and Q of e_t, and the
      observations y_t: the entries [locs] of x_t. *)
  Record state_space (R : randoms F) (n : nat) (T P0 Q : nat -> nat -> F) (x e : nat -> nat -> rv R) : Prop := StateSpace {
    s_next : forall t i, i < n -> x (S t) i = rv_plus R (comb R n (T i) (x t)) (e t i);
    s_first : forall i j, i < n -> j < n -> covariance R (x 0 i) (x 0 j) = P0 i j;
    s_noise : forall t i j, i < n -> j < n -> covariance R (e t i) (e t j) = Q i j;
    s_white : forall t t' i j, t <> t' -> i < n -> j < n -> covariance R (e t i) (e t' j) = r0 O;
    s_apart : forall t i j, i < n -> j < n -> covariance R (x 0 i) (e t j) = r0 O }.

  (** Linear combinations of the observations before period [t]. *)
  Inductive from_past (R : randoms F) (p : nat) (y : nat -> nat -> rv R) (t : nat) : rv R -> Prop :=
  | past_zero : from_past R p y t (rv_zero R)
  | past_one : forall s l, s < t -> l < p -> from_past R p y t (y s l)
  | past_plus : forall a b, from_past R p y t a -> from_past R p y t b -> from_past R p y t (rv_plus R a b)
  | past_scale : forall c a, from_past R p y t a -> from_past R p y t (rv_scale R c a).
  (** The error of a prediction. *)
  Definition error (R : randoms F) (z zh : rv R) : rv R := rv_plus R z (rv_scale R (ropp O (r1 O)) zh).
  (** The best linear prediction of [z] from the observations before [t]: the one with an
      error that is not correlated with any of them. *)
  Definition best (R : randoms F) (p : nat) (y : nat -> nat -> rv R) (t : nat) (z zh : rv R) : Prop :=
    from_past R p y t zh /\ forall s l, s < t -> l < p -> covariance R (error R z zh) (y s l) = r0 O.

  (** What LAPACK says of potrf and potri: together they give the upper triangle of the
      inverse of a symmetric matrix. *)
  Definition lapack_inverts (potrf potri : nat -> (nat -> nat -> F) -> option (nat -> nat -> F)) : Prop :=
    forall n A C V, (forall i j, i < n -> j < n -> A i j = A j i) -> potrf n A = Some C -> potri n C = Some V ->
    exists B, (forall i j, i < n -> j < n -> B i j = B j i) /\
      (forall i j, i < n -> j < n -> Sum F O n (fun k => rmul O (B i k) (A k j)) = if i =? j then r1 O else r0 O) /\
      (forall i j, i <= j -> j < n -> V i j = B i j).
  (** A determinant is one of the entries of the matrix. *)
  Definition of_entries (det : nat -> (nat -> nat -> F) -> F) : Prop :=
    forall n A B, (forall i j, i < n -> j < n -> A i j = B i j) -> det n A = det n B.
End FiltersSpec.
