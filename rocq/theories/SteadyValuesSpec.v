(** What it means that numbers are a steady state, and what an optimiser promises. *)
From Verif Require Import Base Syntax Eval EvalSpec Nd SimSpec CalcSpec LinearizeSpec.

Section SteadyValuesSpec.
  Variable F : Type.
  Variable O : rops F.
  Variable le : F -> F -> Prop.

  (** [x] is a steady state: every equation holds when every variable keeps its value and there
      are no shocks. *)
  Definition is_steady (P : ops F) (endog stoch : list string) (exprs : list (ast F)) (params : list (string * F)) (x : list F) : Prop :=
    List.length x = List.length endog /\ Forall (fun e => steady_residual F O P endog stoch params e x (r0 O)) exprs.

  (** [x] is a point of least value of a function of [n] arguments. *)
  Definition least (n : nat) (f : list F -> res F) (x : list F) : Prop :=
    List.length x = n /\ exists u, f x = Ok u /\ forall y v, List.length y = n -> f y = Ok v -> le u v.
  (** [x] is a point of least value among the points nearby. *)
  Definition least_nearby (n : nat) (f : list F -> res F) (x : list F) : Prop :=
    List.length x = n /\ exists u d, f x = Ok u /\ positive F O le d /\
      forall y v, List.length y = n -> (forall i, i < n -> within F O le d (rsub O (nth i y (r0 O)) (nth i x (r0 O)))) -> f y = Ok v -> le u v.

  (** A matrix of [m] rows and [n] columns whose rows are linearly independent. *)
  Definition independent_rows (m n : nat) (J : nat -> nat -> F) : Prop :=
    forall w, (forall j, j < n -> Sum F O m (fun i => rmul O (w i) (J i j)) = r0 O) -> forall i, i < m -> w i = r0 O.
End SteadyValuesSpec.
