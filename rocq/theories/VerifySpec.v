(** Specification for C42 and C61, without the model's functions. *)
From Verif Require Import Base Verify.

(** [k] of the eigenvalues are outside the unit circle. *)
Definition explosive {E : Type} (outside : E -> bool) (es : list E) (k : nat) : Prop :=
  exists l : list nat, NoDup l /\ List.length l = k /\
    forall i, In i l <-> exists e, nth_error es i = Some e /\ outside e = true.

(** The condition that fails, the order condition being looked at first. *)
Definition violates {E : Type} (outside : E -> bool) (s : statespace E) (b : bk) : Prop :=
  exists k, explosive outside (eigen s) k /\
    ((k <> n_fwd s /\ b = Order k (n_fwd s)) \/ (k = n_fwd s /\ rank22 s <> size22 s /\ b = Rank)).

(** No call of verify since the state space was made, which is at the start of the
    history or at the last successful update. *)
Definition unverified {E : Type} (os : list (vop E)) : Prop :=
  exists a b, os = a ++ b /\ ~ In Verify b /\
    (a = [] \/ exists a' es r z n, a = a' ++ [Updated es r z n]).

(** A history in which every model has a dictionary of its own: no address is used by
    two constructions, counting those before. *)
Definition made {V : Type} (os : list (wop V)) : list nat :=
  flat_map (fun o => match o with Make a => [a] | AddParam _ _ _ => [] end) os.
