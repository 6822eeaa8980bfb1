(** What the moments of a solution are: covariances of a stationary process that follows
    the decision rule. *)
From Verif Require Import Base Nd SimSpec.

Section MomentsSpec.
  Variable F : Type.
  Variable O : rops F.

  (** Random variables of mean zero.  All that matters here is how they are added and
      scaled, and their covariance. *)
  Record randoms := Randoms { rv : Type; rv_zero : rv; rv_plus : rv -> rv -> rv; rv_scale : F -> rv -> rv;
    covariance : rv -> rv -> F }.
  Record lawful (R : randoms) : Prop := Lawful {
    cov_sym : forall x y, covariance R x y = covariance R y x;
    cov_zero : forall z, covariance R (rv_zero R) z = r0 O;
    cov_plus : forall x y z, covariance R (rv_plus R x y) z = radd O (covariance R x z) (covariance R y z);
    cov_scale : forall a x z, covariance R (rv_scale R a x) z = rmul O a (covariance R x z) }.
  (** Variances are not negative. *)
  Definition positive (le : F -> F -> Prop) (R : randoms) : Prop := forall x, le (r0 O) (covariance R x x).

  (** The matrix [M] is positive semidefinite: x' M x is not negative. *)
  Definition semidefinite (le : F -> F -> Prop) (n : nat) (M : nat -> nat -> F) : Prop :=
    forall x : nat -> F, le (r0 O) (Sum F O n (fun i => Sum F O n (fun j => rmul O (x i) (rmul O (M i j) (x j))))).

  (** a_0 x_0 + ... + a_{n-1} x_{n-1} *)
  Fixpoint comb (R : randoms) (n : nat) (a : nat -> F) (x : nat -> rv R) : rv R :=
    match n with 0 => rv_zero R | S n' => rv_plus R (comb R n' a x) (rv_scale R (a n') (x n')) end.

  (** A process that follows the rule [g]: [y t v] is the deviation of variable [v] in
      period [t], [u t l] the shock [l] that moves the variables from [t] to [t+1].
      [Sg] is the covariance matrix of the shocks. *)
  Record follows (R : randoms) (g : rule F) (Sg : nat -> nat -> F) (y u : nat -> nat -> rv R) : Prop := Follows {
    f_rule : forall t i, i < rn g ->
      y (S t) (var_at g i) =
        rv_plus R (comb R (rs g) (ry g i) (fun j => y t (state_at g j))) (comb R (rk g) (ru g i) (u t));
    f_now : forall t l m, l < rk g -> m < rk g -> covariance R (u t l) (u t m) = Sg l m;
    f_white : forall t t' l m, t <> t' -> l < rk g -> m < rk g -> covariance R (u t l) (u t' m) = r0 O;
    f_initial : forall t v l, v < rn g -> l < rk g -> covariance R (y 0 v) (u t l) = r0 O }.
  (** Its covariances do not change over time. *)
  Definition stationary (R : randoms) (g : rule F) (y : nat -> nat -> rv R) : Prop :=
    forall t v w, v < rn g -> w < rn g -> covariance R (y (S t) v) (y (S t) w) = covariance R (y t v) (y t w).

  (** The coefficients of the states on the states. *)
  Definition on_states (g : rule F) (i j : nat) : F := ry g (nth i (rstate g) 0) j.
  (** At most one stationary covariance of the states: W = A W A' only for W = 0.  It
      holds when all roots of A are inside the unit circle. *)
  Definition stable (g : rule F) : Prop :=
    forall W : nat -> nat -> F,
    (forall i j, i < rs g -> j < rs g ->
       W i j = Sum F O (rs g) (fun a => rmul O (on_states g i a) (Sum F O (rs g) (fun b => rmul O (W a b) (on_states g j b))))) ->
    forall i j, i < rs g -> j < rs g -> W i j = r0 O.

  (** No deviation of the states stays as it is: I - A has an inverse. *)
  Definition no_unit_root (g : rule F) : Prop :=
    forall x : nat -> F, (forall i, i < rs g -> x i = Sum F O (rs g) (fun a => rmul O (on_states g i a) (x a))) -> forall i, i < rs g -> x i = r0 O.

  (** What scipy says of the Lyapunov solver: X = A X A' + Q. *)
  Definition solves_lyapunov (lyap : nat -> (nat -> nat -> F) -> (nat -> nat -> F) -> res (nat -> nat -> F)) : Prop :=
    forall n A Q X, lyap n A Q = Ok X -> forall i j, i < n -> j < n ->
    X i j = radd O (Sum F O n (fun a => rmul O (A i a) (Sum F O n (fun b => rmul O (X a b) (A j b))))) (Q i j).
  (** ... of the lower Cholesky factor: L L' = S, zero above the diagonal. *)
  Definition factors (chol : nat -> (nat -> nat -> F) -> res (nat -> nat -> F)) : Prop :=
    forall n S L, chol n S = Ok L ->
    (forall i j, i < n -> j < n -> S i j = Sum F O n (fun a => rmul O (L i a) (L j a))) /\
    (forall i j, i < n -> j < n -> i < j -> L i j = r0 O).
  (** ... and of the solution of linear equations: A x = b. *)
  Definition solves_linear (lsolve : nat -> (nat -> nat -> F) -> (nat -> F) -> res (nat -> F)) : Prop :=
    forall n A b x, lsolve n A b = Ok x -> forall i, i < n -> Sum F O n (fun a => rmul O (A i a) (x a)) = b i.

  (** The perturbation 1e-12. *)
  Definition tiny : F := rdiv O (r1 O) (Nat.iter 12 (rmul O (number O 10)) (r1 O)).
  (** The perturbed covariance matrix of the shocks; shock [i] alone, with its perturbed
      variance; the [i]-th column of a factor alone. *)
  Definition nudged (Sg : nat -> nat -> F) (a b : nat) : F := if a =? b then radd O (Sg a a) tiny else Sg a b.
  Definition alone (Sg : nat -> nat -> F) (i a b : nat) : F := if (a =? i) && (b =? i) then radd O (Sg i i) tiny else r0 O.
  Definition by_column (L : nat -> nat -> F) (i a b : nat) : F := rmul O (L a i) (L b i).

  (** The expected deviations under the rule with second-order terms (SimSpec.obeys2 with
      one half for [c]), second moments of the states from the first-order rule:
      [V] is the covariance of the states. *)
  Definition second_order_mean (half : F) (g : rule F) (X U : nat -> nat -> nat -> F) (C : nat -> F)
      (Sg V : nat -> nat -> F) (e : nat -> F) : Prop :=
    forall i, i < rn g ->
    e (var_at g i) =
      radd O (Sum F O (rs g) (fun j => rmul O (ry g i j) (e (state_at g j))))
        (rmul O half (radd O (radd O
          (Sum F O (rs g) (fun a => Sum F O (rs g) (fun b => rmul O (X i a b) (V a b))))
          (Sum F O (rk g) (fun l => Sum F O (rk g) (fun m => rmul O (U i l m) (Sg l m))))) (C i))).
End MomentsSpec.
Arguments rv {F}. Arguments covariance {F}. Arguments Randoms {F}. Arguments rv_zero {F}. Arguments rv_plus {F}. Arguments rv_scale {F}.
Arguments comb {F}.
