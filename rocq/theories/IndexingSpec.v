(** What the lead-lag structure of a model is. *)
From Verif Require Import Base Syntax EvalSpec FactorySpec.

(** Variable [i] occurs at period [k], where [lls] are the sets of periods of the
    variables in declaration order. *)
Definition at_k (lls : list (list Z)) (i : nat) (k : Z) : bool := existsb (Z.eqb k) (nth i lls []).

(** The timed variables in the order of the Jacobian: lags, current, leads; in
    declaration order within a period. *)
Definition timed_vars (lls : list (list Z)) : list (nat * Z) :=
  flat_map (fun k => map (fun i => (i, k)) (filter (fun i => at_k lls i k) (seq 0 (List.length lls)))) [(-1)%Z; 0%Z; 1%Z].

(** Classes of variables. *)
Definition static (lls : list (list Z)) (i : nat) : bool := negb (at_k lls i (-1)) && negb (at_k lls i 1).
Definition backward (lls : list (list Z)) (i : nat) : bool := at_k lls i (-1).
Definition forward (lls : list (list Z)) (i : nat) : bool := at_k lls i 1.
Definition mixed (lls : list (list Z)) (i : nat) : bool := at_k lls i (-1) && at_k lls i 1.
Definition pure_backward (lls : list (list Z)) (i : nat) : bool := at_k lls i (-1) && negb (at_k lls i 1).
Definition pure_forward (lls : list (list Z)) (i : nat) : bool := negb (at_k lls i (-1)) && at_k lls i 1.
Definition members_of (lls : list (list Z)) (c : nat -> bool) : list nat := filter c (seq 0 (List.length lls)).

(** Every variable occurs, at offsets -1, 0 and 1 only. *)
Definition in_range (lls : list (list Z)) : Prop :=
  Forall (fun ll => ll <> [] /\ Forall (fun k => (-1 <= k <= 1)%Z) ll) lls.
