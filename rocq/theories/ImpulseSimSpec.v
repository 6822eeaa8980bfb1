(** What is expected of impulse responses. *)
From Verif Require Import Base Syntax Eval Nd Sim SimSpec CalcSpec AccuracySpec.

(** The shocks that are moved: the first one if none is named. *)
Definition moved (names : list string) (e : option key) (j : nat) : bool :=
  match e with
  | None => j =? 0
  | Some (One x) => String.eqb (nth j names ""%string) x
  | Some (Many xs) => existsb (String.eqb (nth j names ""%string)) xs
  end.
(** Those that are named exist. *)
Definition named_shocks (names : list string) (e : option key) : Prop :=
  match e with None => True | Some (One x) => In x names | Some (Many xs) => forall x, In x xs -> In x names end.

Section ImpulseSimSpec.
  Variable F : Type.
  Variable O : rops F.
  Variable le : F -> F -> Prop.
  Variable P : ops F.
  Local Notation Sum := (SimSpec.Sum F O).
  Variable endog stoch : list string.
  Variable params : list (string * F).
  Variable exprs : list (ast F).
  Variable ss : list F.
  (** Unit shocks are multiplied by the factor [R] of the covariance matrix. *)
  Variable R : nat -> nat -> F.
  (** The shocks moved, the number of periods, and what is returned for each size. *)
  Variable e : option key.
  Variable periods : nat.
  Variable response : F -> res (list (list F)).

  (** Responses satisfy the equations to first order.  For every size [h] there is a response:
      a row for each period, the first of them zero, proportional to [h].  When the variables
      deviate from [ss] by the rows of the response, and the shocks that are moved are [h] units
      in the first period and none otherwise, then the value of each equation, with last
      period's values those of period [r], today's those of period [r+1] and tomorrow's those of
      period [r+2], divided by [h], goes to zero with [h]. *)
  Definition responses_solve : Prop :=
    let n := List.length endog in let k := List.length stoch in
    exists rows : F -> list (list F),
      (forall h, response h = Ok (rows h)) /\
      (forall h, table F periods n (rows h)) /\
      (forall h v, v < n -> value F O (rows h) 0 v = r0 O) /\
      (forall h t v, t < periods -> v < n -> value F O (rows h) t v = rmul O h (value F O (rows (r1 O)) t v)) /\
      forall r, S (S r) < periods ->
      Forall (fun eq => exists gap : F -> F,
        near F O le (fun h => equation_value F P endog stoch params
           (level F O ss (value F O (rows h) r)) (level F O ss (value F O (rows h) (S r))) (level F O ss (value F O (rows h) (S (S r))))
           (fun l => if r =? 0 then rmul O h (Sum k (fun j => if moved stoch e j then R j l else r0 O)) else r0 O) eq (gap h)) /\
        small1 F O le gap) exprs.
End ImpulseSimSpec.
