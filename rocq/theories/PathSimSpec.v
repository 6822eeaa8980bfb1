(** What is expected of simulated paths. *)
From Verif Require Import Base Syntax Eval Nd SimSpec CalcSpec AccuracySpec.

Section PathSimSpec.
  Variable F : Type.
  Variable O : rops F.
  Variable le : F -> F -> Prop.
  Variable P : ops F.
  Local Notation "x + y" := (radd O x y).
  Local Notation "x * y" := (rmul O x y).
  Local Notation Sum := (SimSpec.Sum F O).
  Variable endog stoch : list string.
  Variable params : list (string * F).
  Variable exprs : list (ast F).
  Variable ss : list F.
  (** The shocks of a period are given as numbers, to be multiplied by the factor [R]. *)
  Variable R : nat -> nat -> F.
  (** What a simulation returns for given shocks (a row for each period) and initial values. *)
  Variable simulation : nd F -> nd F -> res (list (list F)).

  (** Simulated paths satisfy the equations to first order.  Let the initial deviations [x]
      from [ss], the shocks [u] and the outcomes [e], of mean zero, of the shocks of period
      [r+1] be scaled by [h].  For every outcome [q] the simulation returns a path of [T]
      periods.  Up to period [r+1] the paths are the same.  The expected value of each
      equation, with last period's values those of period [r], today's those of period [r+1]
      and tomorrow's those of period [r+2], divided by [h], goes to zero with [h]. *)
  Definition paths_solve : Prop :=
    let n := List.length endog in let k := List.length stoch in
    forall (T r : nat) (u : nat -> nat -> F) (x : nat -> F) (N : nat) (w : nat -> F) (e : nat -> nat -> F),
    S (S r) < T -> centred F O k N w e ->
    exists path : nat -> F -> list (list F),
      (forall q h, simulation (M2 T k (fun t l => h * (if t =? S r then e q l else u t l))) (V1 n (fun v => nth v ss (r0 O) + h * x v)) = Ok (path q h)) /\
      (forall q h, table F T n (path q h)) /\
      (forall q q' h t v, t <= S r -> v < n -> value F O (path q h) t v = value F O (path q' h) t v) /\
      Forall (fun eq => exists gap : nat -> F -> F,
        (forall q, q < N -> near F O le (fun h =>
           equation_value F P endog stoch params (value F O (path q h) r) (value F O (path q h) (S r)) (value F O (path q h) (S (S r)))
             (fun l => h * Sum k (fun j => u r j * R j l)) eq (gap q h))) /\
        small1 F O le (fun h => Sum N (fun q => w q * gap q h))) exprs.
End PathSimSpec.
