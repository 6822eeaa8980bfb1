(** What the arguments of the dynamic equations mean. *)
From Verif Require Import Base Syntax EvalSpec FactorySpec IndexingSpec.

Section Spec.
  Variable V : Type.
  Variable endog stoch : list string.
  Variable exprs : list (ast V).
  Variable params : list (string * V).

  (** Variable number [i] occurs at period [k] in the equations. *)
  Definition occurs_at (i : nat) (k : Z) : Prop :=
    exists x e, nth_error endog i = Some x /\ In e exprs /\ at_period V x k e.
  (** The signature: a list of the timed variables that occur, lags first, then
      current, then leads, each period in declaration order. *)
  Definition before (a b : nat * Z) : Prop := (snd a < snd b)%Z \/ (snd a = snd b /\ fst a < fst b).
  Definition signature (l : list (nat * Z)) : Prop :=
    (forall i k, In (i, k) l <-> occurs_at i k) /\
    (forall p q a b, p < q -> nth_error l p = Some a -> nth_error l q = Some b -> before a b).

  (** The values of names and of timed names, when [l] is the signature, [a] gives the
      timed variables and [u] the shocks.  Parameters come first. *)
  Variable l : list (nat * Z).
  Variable a u : list V.
  Definition plain (x : string) (v : V) : Prop :=
    match lookup x params with
    | Some w => v = w
    | None =>
        (exists i j, nth_error endog i = Some x /\ nth_error l j = Some (i, 0%Z) /\ nth_error a j = Some v) \/
        (exists s, nth_error stoch s = Some x /\ nth_error u s = Some v)
    end.
  Definition at_time (x : string) (k : Z) (v : V) : Prop :=
    exists i j, nth_error endog i = Some x /\ nth_error l j = Some (i, k) /\ nth_error a j = Some v.

  (** The same at a steady state: every date has the same value, shocks are zero. *)
  Variable zero : V.
  Variable ss : list V.
  Definition steady_plain (x : string) (v : V) : Prop :=
    match lookup x params with
    | Some w => v = w
    | None => (exists i, nth_error endog i = Some x /\ nth_error ss i = Some v) \/ (In x stoch /\ v = zero)
    end.

  (** Names. *)
  Definition names : list string := endog ++ stoch ++ keys params.
  Definition declared (e : ast V) : Prop :=
    (forall x, occurs V x e -> In x names) /\ (forall x k, occurs_t V x k e -> In x names).
  Definition no_clash : Prop :=
    forall x y, In x names -> In y names -> x <> (y ++ "m1")%string /\ x <> (y ++ "p1")%string.
  Definition offsets (e : ast V) : Prop := forall x k, occurs_t V x k e -> k = (-1)%Z \/ k = 1%Z.
  (** An equation is not a single name or number: it has two sides. *)
  Definition is_equation (e : ast V) : Prop :=
    match e with Num _ | Var _ | PVar _ _ => False | _ => True end.
End Spec.
