(** What it means that a decision rule solves the equations of a model to first or second
    order. *)
From Verif Require Import Base Syntax Eval Nd SimSpec IndexingSpec DynSpec FirstOrderSpec SylvesterSpec CalcSpec EvalSpec.

Section AccuracySpec.
  Variable F : Type.
  Variable O : rops F.
  Variable le : F -> F -> Prop.
  Variable P : ops F.
  Local Notation "x + y" := (radd O x y).
  Local Notation "x * y" := (rmul O x y).
  Local Notation Sum := (SimSpec.Sum F O).

  (** The value of an equation (left side less right side) when the variables had the values
      [lag] last period, have [now], will have [next], and the shocks are [u]. *)
  Variable endog stoch : list string.
  Variable params : list (string * F).
  Definition equation_value (lag now next u : nat -> F) (e : ast F) (v : F) : Prop :=
    EvalSpec.value F P
      (fun x w => match lookup x params with
                  | Some c => w = c
                  | None => (exists i, nth_error endog i = Some x /\ w = now i) \/ (exists s, nth_error stoch s = Some x /\ w = u s)
                  end)
      (fun x k w => exists i, nth_error endog i = Some x /\ w = dated F lag now next (i, k)) e v.
  (** The values of the variables when they deviate from the steady state [ss]. *)
  Definition level (ss : list F) (dev : nat -> F) : nat -> F := fun v => nth v ss (r0 O) + dev v.

  (** The motion that the four second-order arrays and the first-order rule prescribe, when the
      variance of the shocks is multiplied by [scale]. *)
  Definition moves (g : rule F) (xx xu uu dl : nd F) (before u : nat -> F) (scale : F) (after : nat -> F) : Prop :=
    forall i, i < rn g -> after (var_at g i) =
      Sum (rs g) (fun j => ry g i j * before (state_at g j)) + Sum (rk g) (fun l => ru g i l * u l) +
      Sum (rs g) (fun a => Sum (rs g) (fun b => entries F xx i (Nat.add (Nat.mul a (rs g)) b) * (before (state_at g a) * before (state_at g b)))) +
      Sum (rs g) (fun a => Sum (rk g) (fun l => entries F xu i (Nat.add (Nat.mul a (rk g)) l) * (before (state_at g a) * u l))) +
      Sum (rk g) (fun l => Sum (rk g) (fun m => entries F uu i (Nat.add (Nat.mul l (rk g)) m) * (u l * u m))) +
      entries F dl i 0 * scale.

  (** A distribution of the [k] shocks: [n] outcomes with weights [p]; the outcomes are [e].
      The mean is zero, and the covariance matrix is [V]. *)
  Definition centred (k n : nat) (p : nat -> F) (e : nat -> nat -> F) : Prop :=
    Sum n p = r1 O /\ forall l, l < k -> Sum n (fun s => p s * e s l) = r0 O.
  Definition covariance (k n : nat) (p : nat -> F) (e : nat -> nat -> F) (V : nat -> nat -> F) : Prop :=
    forall l m, l < k -> m < k -> Sum n (fun s => p s * (e s l * e s m)) = V l m.

  (** A quantity is small of first or second order: divided by [t] or [t^2] it goes to zero. *)
  Definition small1 (r : F -> F) : Prop := exists s, vanishes F O le s /\ near F O le (fun t => r t = s t * t).
  Definition small2 (r : F -> F) : Prop := exists s, vanishes F O le s /\ near F O le (fun t => r t = s t * (t * t)).

  (** The expected value of an equation is small: given deviations [x] of last period and shocks
      [u], both scaled by [t], and tomorrow's shocks scaled by [t] too. *)
  Definition expected_small (small : (F -> F) -> Prop) (n : nat) (p : nat -> F)
      (ss : list F) (lag now : F -> nat -> F) (next : nat -> F -> nat -> F) (u : F -> nat -> F) (e : ast F) : Prop :=
    exists r : nat -> F -> F,
      (forall s, s < n -> near F O le (fun t => equation_value (level ss (lag t)) (level ss (now t)) (level ss (next s t)) (u t) e (r s t))) /\
      small (fun t => Sum n (fun s => p s * r s t)).
End AccuracySpec.
