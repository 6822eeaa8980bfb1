(** What the state space of a solved model shows: how the states move, and how they vary. *)
From Verif Require Import Base Nd SimSpec MomentsSpec StatsState StatsStateSpec.

Section StateSpaceSpec.
  Variable F : Type.
  Variable O : rops F.

  (** The matrices [A] and [B] carry the states from each period to the next, on every path that
      obeys the rule. *)
  Definition carries (g : rule F) (A B : nat -> nat -> F) : Prop :=
    forall T u x, obeys F O g T u x -> forall t i, S t < T -> i < rs g ->
    x (S t) (state_at g i) =
      radd O (Sum F O (rs g) (fun j => rmul O (A i j) (x t (state_at g j)))) (Sum F O (rk g) (fun l => rmul O (B i l) (u t l))).

  (** The questions about the state space, and their answers. *)
  Definition about_space (q : query) : Prop := q = Verify \/ q = Transition \/ q = StateVariance.
  Definition shows (g : rule F) (Sg : nat -> nat -> F) (q : query) (a : answer F) : Prop :=
    match q with
    | Verify => a = Nothing
    | Transition => exists A B, a = Two (M2 (rs g) (rs g) A) (M2 (rs g) (rk g) B) /\ carries g A B
    | StateVariance => exists C, a = Array (M2 (rs g) (rs g) C) /\
        at_dates F O g Sg (fun R y t => forall i j, i < rs g -> j < rs g -> C i j = covariance R (y t (state_at g i)) (y t (state_at g j)))
    | _ => True
    end.
End StateSpaceSpec.
