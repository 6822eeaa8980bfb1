(** What the printed decision rules should say. *)
From Verif Require Import Base Nd Indexing Summary.
From Coq Require Export Permutation.

Section SummarySpec.
  Variable F : Type.
  (** Variables and shocks are numbered as declared: [n] variables, their names and steady
      state, the numbers of the states in ascending order, and the names of the shocks. *)
  Variable endog stoch : list string.
  Variable ss : list F.
  Variable dflt : F.
  Variable states : list nat.
  (** Coefficients of a variable: on a state, a shock, two states, a state and a shock, two
      shocks, and the correction for risk. *)
  Variable cy cu : nat -> nat -> F.
  Variable cyy cyu cuu : nat -> nat -> nat -> F.
  Variable cr : nat -> F.

  Definition name (v : nat) : string := nth v endog EmptyString.
  Definition shock_name (e : nat) : string := nth e stoch EmptyString.
  Definition state_name (s : nat) : string := (name s ++ "(-1)")%string.
  Definition n_shocks := List.length stoch.
  (** A row of the table: one number for each variable, in the order of the header. *)
  Definition printed (label : string) (h : nat -> F) : trow F := (label, Values (map h (seq 0 (List.length endog)))).
  Definition pairs {A B} (l : list A) (l' : list B) := list_prod l l'.

  Definition steady_rows := [printed "steady" (fun v => nth v ss dflt)].
  Definition state_rows := map (fun s => printed (state_name s) (fun v => cy v s)) states.
  Definition shock_rows := map (fun e => printed (shock_name e) (fun v => cu v e)) (seq 0 n_shocks).

  Definition first_table : list (trow F) :=
    [(""%string, Header endog)] ++ steady_rows ++ state_rows ++ [(""%string, Plus)] ++ shock_rows.

  Definition state_pair_rows :=
    map (fun p => printed (state_name (fst p) ++ ", " ++ state_name (snd p)) (fun v => cyy v (fst p) (snd p))) (pairs states states).
  Definition cross_rows (col : nat -> nat -> nat -> F) :=
    map (fun p => printed (state_name (fst p) ++ ", " ++ shock_name (snd p)) (fun v => col v (fst p) (snd p)))
      (pairs states (seq 0 n_shocks)).
  Definition shock_pair_rows :=
    map (fun p => printed (shock_name (fst p) ++ ", " ++ shock_name (snd p)) (fun v => cuu v (fst p) (snd p)))
      (pairs (seq 0 n_shocks) (seq 0 n_shocks)).
  Definition risk_rows := [printed "del2" cr].

  (** A row is shown if some number of it is not below the threshold. *)
  Definition shown (below : F -> bool) (r : trow F) : bool :=
    match snd r with Values xs => existsb (fun x => negb (below x)) xs | _ => true end.
  Definition block (below : F -> bool) (rows : list (trow F)) : list (trow F) :=
    match filter (shown below) rows with [] => [] | l => l ++ [(""%string, Plus)] end.

  (** The steady state and the correction for risk are always shown. *)
  Definition second_table (below : F -> bool) (cross : nat -> nat -> nat -> F) : list (trow F) :=
    [(""%string, Header endog)] ++
    steady_rows ++ filter (shown below) state_rows ++ [(""%string, Plus)] ++
    block below shock_rows ++ block below state_pair_rows ++ block below (cross_rows cross) ++ block below shock_pair_rows ++
    risk_rows.
End SummarySpec.

(** ** The arrays of a decision rule *)

(** The states in the order of the decision rule. *)
Definition dr_states (x : indexes) : list nat := filter (fun v => existsb (Nat.eqb v) (members is_state x)) (dr_order x).
(** The place of a number in an ascending list. *)
Definition position (s : nat) (l : list nat) : nat := List.length (filter (fun a => a <? s) l).

Section ArraySpec.
  Variable F : Type.
  Variable x : indexes.
  Variable n : nat.
  (** A row for each of [n] variables, in the order of the decision rule. *)
  Definition dr_matrix (c : nat) (coef : nat -> nat -> F) : nd F :=
    M2 n c (fun i j => coef (nth i (dr_order x) 0) j).
  (** An array of one column may have lost its second dimension. *)
  Definition is_array (a : nd F) (c : nat) (coef : nat -> nat -> F) : Prop :=
    a = dr_matrix c coef \/ a = squeeze F (dr_matrix c coef).
  (** The coefficient that stands in the row of the [i]-th declared state and a shock: that
      of the [i]-th state of the decision rule. *)
  Definition misplaced (cyu : nat -> nat -> nat -> F) (v s e : nat) : F :=
    cyu v (nth (position s (members is_state x)) (dr_states x) 0) e.
  Definition values_of (r : trow F) : list F := match snd r with Values xs => xs | _ => [] end.
  (** All numbers of a table. *)
  Definition numbers (t : list (trow F)) : list F := concat (map values_of t).
End ArraySpec.
