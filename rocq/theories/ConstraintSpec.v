(** What the conditions of a constraint mean. *)
From Verif Require Import Base Syntax Eval EvalSpec.

Section ConstraintSpec.
  Variable V : Type.
  Variable P : ops V.
  Variable truth : V -> option bool.

  (** In a period in which the variables have the values [row], a name stands for the parameter
      of that name, else for the variable. *)
  Definition named (endog : list string) (params : list (string * V)) (row : nat -> V) (x : string) (w : V) : Prop :=
    match lookup x params with Some c => w = c | None => exists j, nth_error endog j = Some x /\ w = row j end.
  (** The value of a condition in that period; a condition has no dated variables. *)
  Definition condition_value endog params (row : nat -> V) (e : ast V) (v : V) : Prop :=
    EvalSpec.value V P (named endog params row) (fun _ _ _ => False) e v.
  Definition condition_holds endog params (row : nat -> V) (e : ast V) (b : bool) : Prop :=
    exists v, condition_value endog params row e v /\ truth v = Some b.
  (** The condition has a variable in it. *)
  Definition has_variable (endog : list string) (params : list (string * V)) (e : ast V) : Prop :=
    exists x, occurs V x e /\ In x endog /\ lookup x params = None.
  (** Where Python's operators on numbers give a value, numpy's on the elements of arrays give the
      same. *)
  Definition agree (N : ops V) : Prop :=
    (forall o a b v, o_bin P o a b = Ok v -> o_bin N o a b = Ok v) /\ (forall o a v, o_un P o a = Ok v -> o_un N o a = Ok v) /\
    (forall o a b v, o_cmp P o a b = Ok v -> o_cmp N o a b = Ok v) /\ (forall f a v, o_fun P f a = Ok v -> o_fun N f a = Ok v).
End ConstraintSpec.
