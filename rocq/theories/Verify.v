(** Blanchard-Kahn verification and shared dictionaries of parameters: model of
    pynare/core/solve/statespace.py:17-106 and of pynare/core/model.py:32-62,
    pynare/core/generic.py:58, 98-115 with pynare/core/variables.py:780-805. *)
From Verif Require Import Base Syntax Lexer Parser Eval Semantics Factory Calib.

(** ** Verification *)

Section Verification.
  (** Generalised eigenvalues; [outside] is [(abs > 1) | isinf(abs)] (statespace.py:58-59). *)
  Variable E : Type.
  Variable outside : E -> bool.

  (** What verification reads: of the state space (statespace.py:24-41) the eigenvalues,
      [matrix_rank] of the block Z22, its number of rows and the flag; of the model
      [indexes.n_forward] (line 60), which is read when verification runs.  The numerical
      results are arbitrary. *)
  Record statespace := StateSpace {
    eigen : list E; rank22 : nat; size22 : nat; is_verified : option bool; n_fwd : nat
  }.
  Definition mark (b : bool) (s : statespace) : statespace :=
    StateSpace (eigen s) (rank22 s) (size22 s) (Some b) (n_fwd s).

  (** errors/__init__.py:33-51 as raised in statespace.py:64, 69. *)
  Inductive bk := Order (n0 n1 : nat) | Rank.

  (** statespace.py:54-72 [_run_verification]; None is a return without exception. *)
  Definition run_verification (s : statespace) : statespace * option bk :=
    let n := List.length (filter outside (eigen s)) in
    if negb (n =? n_fwd s) then (mark false s, Some (Order n (n_fwd s)))
    else if negb (rank22 s =? size22 s) then (mark false s, Some Rank)
    else (mark true s, None).

  (** statespace.py:44-51 [verify].  [kalman_transition] and [sigma] (75-106) begin with
      it; once they are cached they do not call it, which is as silent as a later call. *)
  Definition verify (s : statespace) : statespace * option bk :=
    match is_verified s with None => run_verification s | Some _ => (s, None) end.

  (** What a user does to a model: [model.statespace.verify()]; an update that succeeds
      (generic.py:427-438), which makes a new state space; and an update that stops with
      an exception after the indexes were made (435) and before the state space (438),
      which leaves the old state space with a new number of forward variables. *)
  Inductive vop := Verify | Updated (es : list E) (r z n : nat) | Stopped (n : nat).
  Definition vstep (o : vop) (s : statespace) : statespace :=
    match o with
    | Verify => fst (verify s)
    | Updated es r z n => StateSpace es r z None n
    | Stopped n => StateSpace (eigen s) (rank22 s) (size22 s) (is_verified s) n
    end.
  Definition vrun (os : list vop) (s : statespace) : statespace := fold_left (fun s o => vstep o s) os s.
End Verification.
Arguments StateSpace {E}. Arguments eigen {E}. Arguments n_fwd {E}. Arguments rank22 {E}.
Arguments size22 {E}. Arguments is_verified {E}.
Arguments Verify {E}. Arguments Updated {E}. Arguments Stopped {E}.

(** ** Dictionaries shared between models *)

Section Sharing.
  Variable V : Type.
  Variable O : ops V.
  Variable float_of : text -> option V.
  Variable trunc : V -> option Z.

  (** Dictionaries by address.  Address 0 is the default argument [{}] of model.py:37, one
      object for all calls.  A model keeps the dictionary it is given (variables.py:786
      [self.defs = defs], from generic.py:58) and its own solution (795).  Simplification:
      the rest of the model is left out, and so are its failures. *)
  Record world := World { dicts : nat -> list (string * pdef V); models : list (nat * list (string * V)) }.

  Definition put_dict (a : nat) (d : list (string * pdef V)) (w : nat -> list (string * pdef V)) : nat -> list (string * pdef V) :=
    fun b => if b =? a then d else w b.
  Fixpoint put_model (i : nat) (p : nat * list (string * V)) (l : list (nat * list (string * V))) : list (nat * list (string * V)) :=
    match i, l with
    | _, [] => []
    | 0, _ :: l' => p :: l'
    | S i', q :: l' => q :: put_model i' p l'
    end.

  (** Making a model with the dictionary at an address (variables.py:785-795), and
      [add_params] (generic.py:98-115) with one parameter on the i-th model
      (variables.py:803-805: the dictionary first, then the solution).  A call on a model
      that does not exist does nothing. *)
  Inductive wop := Make (addr : nat) | AddParam (i : nat) (x : string) (p : pdef V).
  Definition wstep (o : wop) (w : world) : world :=
    match o with
    | Make a =>
        match solve_calibration V O float_of trunc (dicts w a) with
        | Ok c => World (dicts w) (models w ++ [(a, c)])
        | Err _ => w
        end
    | AddParam i x p =>
        match nth_error (models w) i with
        | None => w
        | Some (a, _) =>
            let d := update x p (dicts w a) in
            match solve_calibration V O float_of trunc d with
            | Ok c => World (put_dict a d (dicts w)) (put_model i (a, c) (models w))
            | Err _ => World (put_dict a d (dicts w)) (models w)
            end
        end
    end.
  Definition wrun (os : list wop) (w : world) : world := fold_left (fun w o => wstep o w) os w.

  (** The parameters of the i-th model (variables.py:797-801, 811-815). *)
  Definition shown (w : world) (i : nat) : option (list (string * V)) := option_map snd (nth_error (models w) i).
End Sharing.
Arguments Make {V}. Arguments AddParam {V}. Arguments World {V}. Arguments dicts {V}. Arguments models {V}.
