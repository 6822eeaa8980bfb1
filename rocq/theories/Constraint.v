(** Constraints of an occasionally binding solution: model of pynare/core/solve/binding.py:22-224. *)
From Verif Require Import Base Lexer Syntax Parser Eval Nd Mat Occbin.

(** ** The argument *)

(** binding.py:30: a text, conditions one after the other, pairs of conditions, or another
    object (a Constraint).  Simplification: sequences that mix texts and sequences are left out. *)
Inductive cargument := AText (t : text) | AConditions (l : list text) | APairs (l : list (list text)) | AConstraint.

Section Constraint.
  Variable V : Type.
  Variable float_of : text -> option V.
  Variable trunc : V -> option Z.
  (** Python's operators on numbers, and numpy's on an element of an array. *)
  Variable P N : ops V.
  (** The boolean that a value is, if it is one. *)
  Variable truth : V -> option bool.

  (** The parsed conditions: one pair, or a list of pairs. *)
  Inductive conditions := Single (ref alt : ast V) | Several (l : list (ast V * ast V)).

  (** binding.py:56-66: a pair of the list *)
  Definition parse_pair (c : list text) : res (ast V * ast V) :=
    match c with
    | [r; a] =>
        do e <- parse_string V float_of trunc BaseStandard r;
        do f <- parse_string V float_of trunc BaseStandard a;
        Ok (e, f)
    | _ => Err ValueErr
    end.
  (** binding.py:28-88 [Constraint.__init__]: a text is not a sequence, and neither is a
      Constraint (it has a length and no iterator); the first entry is looked at (52). *)
  Definition make_constraint (a : cargument) : res conditions :=
    match a with
    | AText _ | AConstraint => Err TypeErr
    | AConditions [] | APairs [] => Err IndexErr
    | AConditions l => do p <- parse_pair l; Ok (Single (fst p) (snd p))
    | APairs l => do ps <- mapM parse_pair l; Ok (Several ps)
    end.
  (** binding.py:90-93 [__len__] *)
  Definition constraint_len (c : conditions) : nat := match c with Single _ _ => 1 | Several l => List.length l end.

  (** ** Evaluation *)

  (** A value while a condition is evaluated: a number, or an array of one column. *)
  Inductive cval := Scalar (v : V) | Column (l : list V).
  (** numpy's operators on columns, element by element; the two columns have one length. *)
  Definition each1 (f : V -> res V) (l : list V) : res cval := do r <- mapM f l; Ok (Column r).
  Definition each2 (f : V -> V -> res V) (l m : list V) : res cval :=
    if List.length l =? List.length m then do r <- mapM (fun p => f (fst p) (snd p)) (combine l m); Ok (Column r) else Err ValueErr.
  Definition apply1 (p n : V -> res V) (a : cval) : res cval :=
    match a with Scalar v => do w <- p v; Ok (Scalar w) | Column l => each1 n l end.
  Definition apply2 (p n : V -> V -> res V) (a b : cval) : res cval :=
    match a, b with
    | Scalar v, Scalar w => do u <- p v w; Ok (Scalar u)
    | Scalar v, Column m => each1 (fun w => n v w) m
    | Column l, Scalar w => each1 (fun v => n v w) l
    | Column l, Column m => each2 n l m
    end.
  Definition array_ops : ops cval :=
    Ops cval (Scalar (o_none P)) (fun a => match a with Scalar v => o_isnone P v | Column _ => false end)
      (fun o => apply2 (o_bin P o) (o_bin N o)) (fun o => apply1 (o_un P o) (o_un N o))
      (fun o => apply2 (o_cmp P o) (o_cmp N o)) (fun f => apply1 (o_fun P f) (o_fun N f)).
  (** The numbers of a condition are numbers. *)
  Fixpoint scalars (e : ast V) : ast cval :=
    match e with
    | Num v => Num (Scalar v)
    | Var x => Var x
    | PVar x k => PVar x k
    | Un o e => Un o (scalars e)
    | Bin o l r => Bin o (scalars l) (scalars r)
    | Comp o l r => Comp o (scalars l) (scalars r)
    | Fun f e => Fun f (scalars e)
    end.

  (** binding.py:111: the columns of the path by name; a row of the path is a function of the
      column.  A later column of the same name takes the place of an earlier one. *)
  Definition columns (endog : list string) (n : nat) (rows : list (nat -> V)) : list (string * cval) :=
    fold_left (fun d p => update (fst p) (snd p) d) (combine endog (map (fun j => Column (map (fun r => r j) rows)) (seq 0 n))) [].
  (** binding.py:112: parameters take the place of variables of the same name. *)
  Definition constraint_scope (endog : list string) (n : nat) (params : list (string * V)) (rows : list (nat -> V)) : list (string * cval) :=
    fold_left (fun d p => update (fst p) (Scalar (snd p)) d) params (columns endog n rows).

  (** Two evaluated conditions side by side.  [np.hstack] (line 128): two numbers are a vector of
      two, which has no column 0 (335).  [np.block] (121): a number is a column of one entry. *)
  Definition hstack (r a : cval) : res (list (V * V)) :=
    match r, a with
    | Column l, Column m => if List.length l =? List.length m then Ok (combine l m) else Err ValueErr
    | Scalar _, Scalar _ => Err IndexErr
    | _, _ => Err ValueErr
    end.
  Definition one_column (a : cval) : list V := match a with Scalar v => [v] | Column l => l end.
  Definition beside (r a : cval) : res (list (V * V)) :=
    let l := one_column r in let m := one_column a in
    if List.length l =? List.length m then Ok (combine l m) else Err ValueErr.
  (** An array with an entry that is no boolean is no mask (335, 506). *)
  Definition as_mask (l : list (V * V)) : res (list (bool * bool)) :=
    mapM (fun p => match truth (fst p), truth (snd p) with Some r, Some a => Ok (r, a) | _, _ => Err IndexErr end) l.

  (** binding.py:108-128 [Constraint.__call__], and its use as a mask. *)
  Definition call_constraint (c : conditions) (endog : list string) (n : nat) (params : list (string * V)) (rows : list (nat -> V))
    : res (list (bool * bool)) :=
    let s := SDict (constraint_scope endog n params rows) in
    let eval e := evaluate cval array_ops s (scalars e) in
    match c with
    | Single r a => do x <- eval r; do y <- eval a; do h <- hstack x y; as_mask h
    | Several l =>
        do bs <- mapM (fun p => do x <- eval (fst p); do y <- eval (snd p); Ok (x, y)) l;
        do hs <- mapM (fun p => beside (fst p) (snd p)) bs;
        as_mask (concat hs)
    end.
End Constraint.

(** ** The solution object *)

(** binding.py:141-181 [OccBinSolution.__init__]: [regimes] is the number of models of the
    regime-switching model, none when no equations were given; then [self.model[0]] (169) is an
    indexed Model. *)
Definition occbin_solution {V} (float_of : text -> option V) (trunc : V -> option Z) (a : cargument) (regimes : option nat) : res (conditions V * nat) :=
  do c <- make_constraint V float_of trunc a;
  match regimes with None => Err TypeErr | Some m => Ok (c, m) end.
(** binding.py:184-223 [OccBinSolution.solve]: which models are used, by position.  The positions
    are read before the number of constraints is checked (272, 425). *)
Inductive occbin_plan := OneAlternative (ref alt : nat) | ThreeAlternatives (ref alt0 alt1 dbl : nat).
Definition plan (constraints regimes : nat) : res occbin_plan :=
  if constraints =? 1 then if 2 <=? regimes then Ok (OneAlternative 0 1) else Err IndexErr
  else if 4 <=? regimes then if constraints =? 2 then Ok (ThreeAlternatives 0 1 2 3) else Err ValueErr
  else Err IndexErr.
