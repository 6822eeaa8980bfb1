(** What sorted eigenvalues are: the specification of property C104. *)
From Coq Require Import List ZArith Arith Permutation.
Import ListNotations.

Section EigsSpec.
  Variable V F : Type.
  Variable le : F -> F -> Prop.
  Variable magnitude : V -> F.

  (** [np.argsort]: every position once, in an order in which the values do not decrease; the
      order among equal values is left open. *)
  Definition sorts (argsort : list F -> list nat) : Prop :=
    forall l, Permutation (seq 0 (length l)) (argsort l) /\
      forall i j a b x y, i < j -> nth_error (argsort l) i = Some a -> nth_error (argsort l) j = Some b ->
        nth_error l a = Some x -> nth_error l b = Some y -> le x y.

  (** No later member is beyond an earlier one. *)
  Definition in_order (R : V -> V -> Prop) (l : list V) : Prop :=
    forall i j x y, i < j -> nth_error l i = Some x -> nth_error l j = Some y -> R x y.
  (** [out] consists of the first [n] of [all] in the order [R], each as often as in [all]. *)
  Definition first_of (R : V -> V -> Prop) (n : nat) (all out : list V) : Prop :=
    length out = n /\ in_order R out /\
    exists rest, Permutation all (out ++ rest) /\ forall x y, In x out -> In y rest -> R x y.
  Definition not_below (x y : V) : Prop := le (magnitude y) (magnitude x).
  Definition not_above (x y : V) : Prop := le (magnitude x) (magnitude y).
  (** How many of [n] values are asked for: all, [k] of them (or all, if there are fewer), or all but
      [-k] for a negative number. *)
  Definition wanted (k : option Z) (n : nat) : nat :=
    match k with
    | None => n
    | Some k => if (k <? 0)%Z then n - Z.to_nat (- k) else Nat.min (Z.to_nat k) n
    end.
End EigsSpec.
