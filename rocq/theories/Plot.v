(** Arrangement of plots: model of pynare/plotting/base.py:11-125, 224-252. *)
From Verif Require Import Base.

(** plotting/base.py:248-252, from the candidate [v1] downwards.  [int(n/v1)] with [v1 = 0.0] is
    [int(nan)] (ValueError) for [n = 0] and [int(inf)] (OverflowError) otherwise.
    Simplification: quotients of floats are exact. *)
Fixpoint factor_from (n v1 : nat) : res (nat * nat) :=
  match v1 with
  | 0 => if n =? 0 then Err ValueErr else Err OverflowErr
  | S v1' => if (n / v1) * v1 =? n then Ok (v1, n / v1) else factor_from n v1'
  end.
(** plotting/base.py:237-252 [_factor_near_square_root]; [Nat.sqrt_up] is the ceiling of the root. *)
Definition factor (n : nat) : res (nat * nat) := factor_from n (Nat.sqrt_up n).

(** plotting/base.py:86-91: [int(root + 0.5)] is the root rounded to the nearest number. *)
Definition square_side (n : nat) : nat :=
  let floor := Nat.sqrt n in
  let nearest := if floor * floor + floor <? n then S floor else floor in
  if nearest * nearest =? n then floor else S floor.

Inductive layout := LText (s : string) | LPair (nrows ncols : nat) | LWrong.

(** plotting/base.py:76-108: rows and columns; [LWrong] is a sequence that is not a pair, and the
    empty text and the empty sequence are false. *)
Definition grid_shape (l : layout) (n : nat) : res (nat * nat) :=
  match l with
  | LText s =>
      if String.eqb s "" then Err ValueErr
      else if String.eqb s "rect" then do f <- factor n; Ok (snd f, fst f)
      else if String.eqb s "square" then Ok (square_side n, square_side n)
      else if String.eqb s "column" then Ok (n, 1)
      else Err ValueErr
  | LPair r c => Ok (r, c)
  | LWrong => Err ValueErr
  end.

(** What [plt.subplots] returns: one Axes object, a vector of them or a matrix. *)
Inductive axes := Single | Line (n : nat) | Grid (r c : nat).
(** plotting/base.py:110-114, 224-233 with matplotlib's [subplots]: numbers of rows and columns given
    by the caller win, as does [squeeze=False]; no rows or columns is a ValueError. *)
Record keywords := Keywords { k_rows : option nat; k_cols : option nat; k_squeeze : bool }.
Definition subplots (k : keywords) (r c : nat) : res axes :=
  let r := match k_rows k with Some r' => r' | None => r end in
  let c := match k_cols k with Some c' => c' | None => c end in
  if (r =? 0) || (c =? 0) then Err ValueErr
  else if k_squeeze k then
    (if (r =? 1) && (c =? 1) then Ok Single else if (r =? 1) || (c =? 1) then Ok (Line (r * c)) else Ok (Grid r c))
  else Ok (Grid r c).

(** A cell of the figure. *)
Inductive cell := Whole | At1 (i : nat) | At2 (row col : nat).
(** One call of [_plot]: the cell, the columns of the data and the labels. *)
Definition draw := (cell * list nat * list string)%type.

(** [l[k::step]], [step] positive *)
Fixpoint every {A} (step left : nat) (l : list A) : list A :=
  match l with
  | [] => []
  | a :: l' => match left with 0 => a :: every step (step - 1) l' | S left' => every step left' l' end
  end.

(** plotting/base.py:34-48 *)
Definition plot_grid (r c n : nat) (labels : list string) : list draw :=
  let nsubs := r * c in
  map (fun k =>
      let aidx := k mod nsubs in
      (At2 (aidx / c) (aidx mod c), every nsubs k (seq 0 n), every nsubs k labels))
    (seq 0 (Nat.min nsubs n)).

(** plotting/base.py:51-61 *)
Definition plot_column (nsubs n : nat) (labels : list string) : res (list draw) :=
  mapM (fun k => match nth_error labels k with Some l => Ok (At1 k, [k], [l]) | None => Err IndexErr end)
    (seq 0 (Nat.min nsubs n)).

(** plotting/base.py:64-125 for [n] series; without [subplots] the keywords alone make the axes
    (by default one row and one column). *)
Definition arrange (n : nat) (labels : list string) (sub : bool) (l : layout) (k : keywords) : res (list draw) :=
  if sub then
    do rc <- grid_shape l n;
    do a <- subplots k (fst rc) (snd rc);
    match a with
    | Single => Err AttrErr
    | Line m => plot_column m n labels
    | Grid r c => Ok (plot_grid r c n labels)
    end
  else
    do a <- subplots k 1 1;
    match a with
    | Single => Ok [(Whole, seq 0 n, labels)]
    | _ => Err AttrErr
    end.
