(** What the kinds of variables are and which values a variable starts from:
    specification for C89. *)
From Verif Require Import Base Syntax EvalSpec FactorySpec Views.

Section Spec.
  Variable V : Type.

  (** A variable occurs in some equation with a lag (-1), with a lead (1). *)
  Definition lagged (es : list (ast V)) (x : string) : Prop := exists e, In e es /\ at_period V x (-1) e.
  Definition led (es : list (ast V)) (x : string) : Prop := exists e, In e es /\ at_period V x 1 e.
  Definition is_kind (k : kind) (es : list (ast V)) (x : string) : Prop :=
    match k with
    | KState | KBackward => lagged es x
    | KForward => led es x
    | KPureForward => led es x /\ ~ lagged es x
    | KPureBackward => lagged es x /\ ~ led es x
    | KMixed => lagged es x /\ led es x
    | KStatic => ~ lagged es x /\ ~ led es x
    end.
  (** No variable is more than one period away. *)
  Definition near (names : list string) (es : list (ast V)) : Prop :=
    forall x k e, In x names -> In e es -> at_period V x k e -> (-1 <= k <= 1)%Z.

  (** The value that a variable starts from: the one given; without any value, zero. *)
  Definition starts (zero : V) (i t h : option V) : option V :=
    match i, t, h with None, None, None => Some zero | _, _, _ => i end.
End Spec.

(** The elements with a property, in order. *)
Inductive kept {A} (P : A -> Prop) : list A -> list A -> Prop :=
| kept_nil : kept P [] []
| kept_in a l l' : P a -> kept P l l' -> kept P (a :: l) (a :: l')
| kept_out a l l' : ~ P a -> kept P l l' -> kept P (a :: l) l'.
