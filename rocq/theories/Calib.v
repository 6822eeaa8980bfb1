(** Parameter calibration: model of pynare/core/variables.py:780-984. *)
From Verif Require Import Base Syntax Lexer Parser Eval Semantics Factory.

Section Calib.
  Variable V : Type.
  Variable O : ops V.
  Variable float_of : text -> option V.
  Variable trunc : V -> option Z.

  (** A definition of a parameter, variables.py:858-869: a number, a string, a tree,
      or something else. *)
  Inductive pdef := DNum (v : V) | DText (t : text) | DTree (e : ast V) | DBad.

  (** Entries of the dictionary being solved: numbers, or trees not yet evaluated. *)
  Inductive entry := Val (v : V) | Tree (e : ast V).

  (** variables.py:857-870.  [parse_string] with its default exponent sign. *)
  Definition normalize1 (p : pdef) : res entry :=
    match p with
    | DNum v => Ok (Val v)
    | DText t => do e <- parse_string V float_of trunc BaseStandard t; Ok (Tree e)
    | DTree (Num v) => Ok (Val v)
    | DTree e => Ok (Tree e)
    | DBad => Err TypeErr
    end.
  Definition normalize (d : list (string * pdef)) : res (list (string * entry)) :=
    mapM (fun kp => do e <- normalize1 (snd kp); Ok (fst kp, e)) d.

  (** variables.py:890-916 [ParamLocator]: the set of names of a tree, as a list
      without repetition; other nodes have no visitor (base.py:150-151). *)
  Fixpoint locate (e : ast V) (acc : list string) : res (list string) :=
    match e with
    | Num _ => Ok acc
    | Var x => Ok (if mem x acc then acc else acc ++ [x])
    | Un _ e => locate e acc
    | Fun _ e => locate e acc
    | Bin _ l r => do acc' <- locate l acc; locate r acc'
    | PVar _ _ | Comp _ _ _ => Err GenericErr
    end.

  (** variables.py:874-878 *)
  Definition rhs_of (kp : string * entry) : res (string * list string) :=
    match snd kp with
    | Tree e => do xs <- locate e []; Ok (fst kp, xs)
    | Val _ => Ok (fst kp, [])
    end.

  (** variables.py:961-964 *)
  Definition initial_precedence (rv : list (string * list string)) : list (string * nat) :=
    map (fun kr => (fst kr, match snd kr with [] => 1 | _ => 0 end)) rv.
  Definition total (l : list nat) : nat := fold_right Nat.add 0 l.

  (** variables.py:971-977: one parameter in one pass. *)
  Definition visit_param (st : list (string * nat) * nat) (kr : string * list string)
    : res (list (string * nat) * nat) :=
    let (prec, n) := st in
    match lookup (fst kr) prec with
    | Some 0 =>
        do ps <- mapM (fun y => match lookup y prec with Some p => Ok p | None => Err KeyErr end) (snd kr);
        if forallb (fun p => 0 <? p) ps
        then Ok (update (fst kr) (total ps + 1) prec, n - 1)
        else Ok st
    | _ => Ok st
    end.

  (** variables.py:970-979: [while n_funcs > 0 and total_iters > 0] *)
  Fixpoint passes (iters : nat) (rv : list (string * list string)) (st : list (string * nat) * nat)
    : res (list (string * nat) * nat) :=
    match iters with
    | 0 => Ok st
    | S i => if snd st =? 0 then Ok st else do st' <- foldM visit_param st rv; passes i rv st'
    end.

  (** [sorted(precedence, key=precedence.get)]: stable. *)
  Fixpoint insert_sorted (a : string * nat) (l : list (string * nat)) : list (string * nat) :=
    match l with
    | [] => [a]
    | b :: l' => if snd a <=? snd b then a :: l else b :: insert_sorted a l'
    end.
  Definition sort_by (l : list (string * nat)) : list (string * nat) := fold_right insert_sorted [] l.

  (** variables.py:946-984 *)
  Definition order_precedence (rv : list (string * list string)) : res (list string) :=
    let prec := initial_precedence rv in
    let n := List.length prec - total (map snd prec) in
    do st <- passes (n * (n + 1) / 2) rv (prec, n);
    if existsb (fun kp => snd kp =? 0) (fst st) then Err (CalibErr (snd st))
    else Ok (map fst (sort_by (fst st))).

  (** base.py:215-223 on the dictionary being solved.  Reading a parameter that is
      still a tree is marked as a TypeError; the order of solving excludes it. *)
  Definition entry_get (c : list (string * entry)) (x : string) : res V :=
    match lookup x c with
    | Some (Val v) => Ok v
    | Some (Tree _) => Err TypeErr
    | None => Err SyntaxErr
    end.

  (** variables.py:884-886, 920-942 *)
  Definition solve_param (c : list (string * entry)) (x : string) : res (list (string * entry)) :=
    match lookup x c with
    | Some (Tree e) => do v <- eval_with V O (entry_get c) (fun _ _ => Err GenericErr) e; Ok (update x (Val v) c)
    | Some (Val v) => Ok (update x (Val v) c)
    | None => Err KeyErr
    end.

  (** The solved dictionary; every entry is a number (theorem C19). *)
  Definition number_of (kp : string * entry) : res (string * V) :=
    match snd kp with Val v => Ok (fst kp, v) | Tree _ => Err TypeErr end.

  (** variables.py:841-886 *)
  Definition solve_calibration (d : list (string * pdef)) : res (list (string * V)) :=
    do c <- normalize d;
    do rv <- mapM rhs_of c;
    do order <- order_precedence rv;
    do c' <- foldM solve_param c order;
    mapM number_of c'.

  (** variables.py:780-812 [ModelCalibration]: the definitions and the solution.  The
      definitions are a dictionary, or (when a model is copied, generic.py:490)
      another calibration, read as the numbers it holds. *)
  Inductive calibration := Cal (s : store) (c : list (string * V))
  with store := Plain (d : list (string * pdef)) | Nested (k : calibration).
  Definition solved (k : calibration) : list (string * V) := match k with Cal _ c => c end.
  Definition definitions (s : store) : list (string * pdef) :=
    match s with
    | Plain d => d
    | Nested k => map (fun kv => (fst kv, DNum (snd kv))) (solved k)
    end.

  (** variables.py:785-795 *)
  Definition new_calibration (s : store) : res calibration :=
    do c <- solve_calibration (definitions s); Ok (Cal s c).

  (** variables.py:803-805 [calib[x] = p].  The result is the calibration afterwards
      and the exception raised, if any: the definitions are changed first. *)
  Fixpoint set_param (x : string) (p : pdef) (k : calibration) : calibration * option exn :=
    match k with
    | Cal s c =>
        let (s', er) := match s with
                        | Plain d => (Plain (update x p d), None)
                        | Nested k' => let (k'', er) := set_param x p k' in (Nested k'', er)
                        end in
        match er with
        | Some e => (Cal s' c, Some e)
        | None =>
            match solve_calibration (definitions s') with
            | Ok c' => (Cal s' c', None)
            | Err e => (Cal s' c, Some e)
            end
        end
    end.

  (** variables.py:807-809 [del calib[x]]: nothing is solved again. *)
  Fixpoint del_param (x : string) (k : calibration) : calibration * option exn :=
    match k with
    | Cal s c =>
        let (s', er) := match s with
                        | Plain d => if mem x (keys d) then (Plain (delete x d), None) else (s, Some KeyErr)
                        | Nested k' => let (k'', er) := del_param x k' in (Nested k'', er)
                        end in
        match er with
        | Some e => (Cal s' c, Some e)
        | None => if mem x (keys c) then (Cal s' (delete x c), None) else (Cal s' c, Some KeyErr)
        end
    end.

  (** variables.py:797-801 [calib[x]] *)
  Definition get_param (x : string) (k : calibration) : res V :=
    match lookup x (solved k) with Some v => Ok v | None => Err KeyErr end.
End Calib.
Arguments DNum {V}. Arguments DText {V}. Arguments DTree {V}. Arguments DBad {V}.
Arguments Val {V}. Arguments Tree {V}. Arguments Cal {V}. Arguments Plain {V}. Arguments Nested {V}.

(** model.py:121 [params = outline._parameters]: the definitions a model read from a
    file starts with.  A declared parameter that is never assigned is None, which is
    neither a number nor a string nor a tree. *)
Definition outline_defs {V} (o : outline V) : list (string * pdef V) :=
  map (fun kv => (fst kv, match snd kv with Some e => DTree e | None => DBad end)) (o_params V o).
