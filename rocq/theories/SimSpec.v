(** What a simulation should be, in terms of matrices and paths. *)
From Verif Require Import Base Nd.
From Coq Require Export Ring_theory Field_theory Permutation.

(** Scalars are any commutative ring. *)
Definition is_ring {F} (O : rops F) : Prop :=
  ring_theory (r0 O) (r1 O) (radd O) (rmul O) (rsub O) (ropp O) eq.

(** ... or a field, in which two is not zero. *)
Definition is_field {F} (O : rops F) (inv : F -> F) : Prop :=
  field_theory (r0 O) (r1 O) (radd O) (rmul O) (rsub O) (ropp O) (rdiv O) inv eq.
Definition twice_one {F} (O : rops F) : F := radd O (r1 O) (r1 O).

(** An order that goes with addition and multiplication. *)
Record is_ordered {F} (O : rops F) (le : F -> F -> Prop) : Prop := Ordered {
  o_anti : forall x y, le x y -> le y x -> x = y;
  o_trans : forall x y z, le x y -> le y z -> le x z;
  o_total : forall x y, le x y \/ le y x;
  o_add : forall x y z, le x y -> le (radd O x z) (radd O y z);
  o_mul : forall x y, le (r0 O) x -> le (r0 O) y -> le (r0 O) (rmul O x y) }.
(** The number [n]. *)
Fixpoint number {F} (O : rops F) (n : nat) : F :=
  match n with 0 => r0 O | S n' => radd O (number O n') (r1 O) end.

Section SimSpec.
  Variable F : Type.
  Variable O : rops F.

  (** Sum of the first [n] terms. *)
  Fixpoint Sum (n : nat) (f : nat -> F) : F :=
    match n with 0 => r0 O | S n' => radd O (Sum n' f) (f n') end.

  (** A decision rule: [n] variables, [ns] states, [k] shocks; row [i] of the matrices is
      about the variable [order[i]], column [j] of [ry] about the variable
      [order[state[j]]]. *)
  Record rule := Rule { rn : nat; rs : nat; rk : nat; ry : nat -> nat -> F; ru : nat -> nat -> F;
    rorder : list nat; rstate : list nat }.
  (** [order] lists every variable once; the states are some of the positions. *)
  Definition proper (g : rule) : Prop :=
    Permutation (rorder g) (seq 0 (rn g)) /\ List.length (rstate g) = rs g /\
    NoDup (rstate g) /\ (forall s, In s (rstate g) -> s < rn g) /\ 0 < rn g /\ 0 < rs g /\ 0 < rk g.
  Definition var_at (g : rule) (i : nat) : nat := nth i (rorder g) 0.
  Definition state_at (g : rule) (j : nat) : nat := nth (nth j (rstate g) 0) (rorder g) 0.

  (** [x t v] is the deviation of variable [v] from the steady state in period [t];
      [u t] are the shocks that move the variables from [t] to [t+1]. *)
  Definition starts (g : rule) (x0 : nat -> F) (x : nat -> nat -> F) : Prop :=
    forall v, v < rn g -> x 0 v = x0 v.
  Definition obeys (g : rule) (T : nat) (u x : nat -> nat -> F) : Prop :=
    forall t i, S t < T -> i < rn g ->
    x (S t) (var_at g i) =
      radd O (Sum (rs g) (fun j => rmul O (ry g i j) (x t (state_at g j))))
             (Sum (rk g) (fun l => rmul O (ru g i l) (u t l))).

  (** The same with second-order terms: [X i a b], [U i l m], [Y i a l] are the second
      derivatives of the variable [order[i]] in two states, two shocks, a state and a
      shock, and [C i] in the scale of uncertainty.  In the Taylor expansion [c] is one
      half. *)
  Definition quadratic (g : rule) (X U : nat -> nat -> nat -> F) (C : nat -> F) (u x : nat -> nat -> F) (t i : nat) : F :=
    radd O (radd O
      (Sum (rs g) (fun a => Sum (rs g) (fun b => rmul O (X i a b) (rmul O (x t (state_at g a)) (x t (state_at g b))))))
      (Sum (rk g) (fun l => Sum (rk g) (fun m => rmul O (U i l m) (rmul O (u t l) (u t m))))))
      (C i).
  Definition obeys2 (c : F) (g : rule) (X U Y : nat -> nat -> nat -> F) (C : nat -> F) (T : nat) (u x : nat -> nat -> F) : Prop :=
    forall t i, S t < T -> i < rn g ->
    x (S t) (var_at g i) =
      radd O (radd O (radd O
        (Sum (rs g) (fun j => rmul O (ry g i j) (x t (state_at g j))))
        (Sum (rk g) (fun l => rmul O (ru g i l) (u t l))))
        (rmul O c (quadratic g X U C u x t i)))
        (Sum (rs g) (fun a => Sum (rk g) (fun l => rmul O (Y i a l) (rmul O (x t (state_at g a)) (u t l))))).

  (** The transition of all variables: a matrix over variables in declaration order
      whose [order[i]]-th row and [order[state[j]]]-th column hold [ry i j]. *)
  Definition transition (g : rule) (P : nat -> nat -> F) : Prop :=
    forall i (x : nat -> F), i < rn g ->
    Sum (rn g) (fun w => rmul O (P (var_at g i) w) (x w)) = Sum (rs g) (fun j => rmul O (ry g i j) (x (state_at g j))).
  (** k-th power of P applied to b *)
  Fixpoint power (n : nat) (P : nat -> nat -> F) (k : nat) (b : nat -> F) : nat -> F :=
    match k with 0 => b | S k' => fun v => Sum n (fun w => rmul O (P v w) (power n P k' b w)) end.

  (** A table of [T] periods of [n] variables. *)
  Definition table (T n : nat) (p : list (list F)) : Prop :=
    List.length p = T /\ forall r, In r p -> List.length r = n.
  Definition value (p : list (list F)) (t v : nat) : F := nth v (nth t p []) (r0 O).
End SimSpec.
Arguments rn {F}. Arguments rs {F}. Arguments rk {F}. Arguments ry {F}. Arguments ru {F}.
Arguments rorder {F}. Arguments rstate {F}. Arguments Rule {F}. Arguments proper {F}.
Arguments var_at {F}. Arguments state_at {F}.
