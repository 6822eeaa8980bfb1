(** The collection of a model's equations: model of pynare/core/expressions.py:29-78
    [ModelExprs] with the methods inherited from collections.abc.MutableSequence. *)
From Verif Require Import Base Syntax Lexer Parser.

(** What may be put in the collection: a string, a tree, or something else. *)
Inductive given (V : Type) := GText (t : text) | GTree (e : ast V) | GBad.
Arguments GText {V}. Arguments GTree {V}. Arguments GBad {V}.

(** expressions.py:39-40: the two lists. *)
Record mexprs (V : Type) := MExprs { trees : list (ast V); texts : list text }.
Arguments MExprs {V}. Arguments trees {V}. Arguments texts {V}.

Section ExprList.
  Variable V : Type.
  (** [ExprParser(obj).parse()], expressions.py:105-116. *)
  Variable parse_text : text -> res (ast V).

  (** expressions.py:42-53 *)
  Definition parse_given (g : given V) : res (ast V) :=
    match g with GText t => parse_text t | GTree e => Ok e | GBad => Err TypeErr end.
  (** [obj if isinstance(obj, str) else ''] *)
  Definition text_of (g : given V) : text := match g with GText t => t | _ => [] end.

  (** expressions.py:32-40.  The source is read twice; if it is an iterator
      ([oneshot]) nothing is left for the second time. *)
  Definition new_exprs (oneshot : bool) (gs : list (given V)) : res (mexprs V) :=
    do ts <- mapM parse_given gs;
    Ok (MExprs ts (if oneshot then [] else map text_of gs)).

  (** Python list indexing: positions from the end for negative indices. *)
  Definition index (n : nat) (k : Z) : option nat :=
    let n' := Z.of_nat n in
    if ((0 <=? k) && (k <? n'))%Z then Some (Z.to_nat k)
    else if ((- n' <=? k) && (k <? 0))%Z then Some (Z.to_nat (n' + k))
    else None.
  (** [list.insert]: indices are clamped. *)
  Definition insert_index (n : nat) (k : Z) : nat :=
    let n' := Z.of_nat n in
    if (k <? 0)%Z then Z.to_nat (Z.max 0 (n' + k)) else Z.to_nat (Z.min k n').

  Fixpoint insert_at {A} (i : nat) (a : A) (l : list A) : list A :=
    match i, l with
    | 0, _ => a :: l
    | S i', b :: l' => b :: insert_at i' a l'
    | S _, [] => [a]
    end.
  Fixpoint delete_at {A} (i : nat) (l : list A) : list A :=
    match i, l with
    | _, [] => []
    | 0, _ :: l' => l'
    | S i', b :: l' => b :: delete_at i' l'
    end.
  Fixpoint replace_at {A} (i : nat) (a : A) (l : list A) : list A :=
    match i, l with
    | _, [] => []
    | 0, _ :: l' => a :: l'
    | S i', b :: l' => b :: replace_at i' a l'
    end.
  Fixpoint remove_where {A} (p : nat -> bool) (i : nat) (l : list A) : list A :=
    match l with
    | [] => []
    | a :: l' => if p i then remove_where p (S i) l' else a :: remove_where p (S i) l'
    end.

  (** expressions.py:70-78: parse first, then change both lists. *)
  Definition insert (k : Z) (g : given V) (x : mexprs V) : mexprs V * res unit :=
    match parse_given g with
    | Err er => (x, Err er)
    | Ok e => (MExprs (insert_at (insert_index (List.length (trees x)) k) e (trees x))
                      (insert_at (insert_index (List.length (texts x)) k) (text_of g) (texts x)), Ok tt)
    end.
  Definition append (g : given V) (x : mexprs V) : mexprs V * res unit :=
    insert (Z.of_nat (List.length (trees x))) g x.

  (** expressions.py:61-63: the two deletions are separate statements. *)
  Definition del (k : Z) (x : mexprs V) : mexprs V * res unit :=
    match index (List.length (trees x)) k with
    | None => (x, Err IndexErr)
    | Some i =>
        let x1 := MExprs (delete_at i (trees x)) (texts x) in
        match index (List.length (texts x)) k with
        | None => (x1, Err IndexErr)
        | Some j => (MExprs (trees x1) (delete_at j (texts x)), Ok tt)
        end
    end.
  (** The same with a slice, which selects positions by the length. *)
  Definition del_slice (s : nat -> nat -> bool) (x : mexprs V) : mexprs V * res unit :=
    (MExprs (remove_where (s (List.length (trees x))) 0 (trees x))
            (remove_where (s (List.length (texts x))) 0 (texts x)), Ok tt).

  (** expressions.py:65-68 *)
  Definition set (k : Z) (g : given V) (x : mexprs V) : mexprs V * res unit :=
    match parse_given g with
    | Err er => (x, Err er)
    | Ok e =>
        match index (List.length (trees x)) k with
        | None => (x, Err IndexErr)
        | Some i =>
            let x1 := MExprs (replace_at i e (trees x)) (texts x) in
            match index (List.length (texts x)) k with
            | None => (x1, Err IndexErr)
            | Some j => (MExprs (trees x1) (replace_at j (text_of g) (texts x)), Ok tt)
            end
        end
    end.
  (** With a slice the tree is not iterable: TypeError, nothing changed. *)
  Definition set_slice (g : given V) (x : mexprs V) : mexprs V * res unit :=
    match parse_given g with Err er => (x, Err er) | Ok _ => (x, Err TypeErr) end.

  (** MutableSequence.extend, [+=]: one append after the other. *)
  Fixpoint extend (gs : list (given V)) (x : mexprs V) : mexprs V * res unit :=
    match gs with
    | [] => (x, Ok tt)
    | g :: gs' =>
        match append g x with
        | (x1, Ok _) => extend gs' x1
        | (x1, Err er) => (x1, Err er)
        end
    end.
  (** MutableSequence.pop: read, then delete. *)
  Definition pop (k : Z) (x : mexprs V) : mexprs V * res unit :=
    match index (List.length (trees x)) k with None => (x, Err IndexErr) | Some _ => del k x end.
  (** MutableSequence.clear: pop the last until there is none. *)
  Fixpoint clear_n (n : nat) (x : mexprs V) : mexprs V * res unit :=
    match n with
    | 0 => (x, Ok tt)
    | S n' =>
        match pop (-1) x with
        | (x1, Ok _) => clear_n n' x1
        | (x1, Err IndexErr) => (x1, Ok tt)
        | (x1, Err er) => (x1, Err er)
        end
    end.
  Definition clear (x : mexprs V) : mexprs V * res unit := clear_n (S (List.length (trees x))) x.
  (** MutableSequence.remove: delete the first tree that is equal ([p]) to the argument. *)
  Fixpoint find_at (p : ast V -> bool) (i : nat) (l : list (ast V)) : option nat :=
    match l with [] => None | e :: l' => if p e then Some i else find_at p (S i) l' end.
  Definition remove (p : ast V -> bool) (x : mexprs V) : mexprs V * res unit :=
    match find_at p 0 (trees x) with None => (x, Err ValueErr) | Some i => del (Z.of_nat i) x end.
  (** MutableSequence.reverse: swaps of trees through the assignment above,
      [self[i], self[n-i-1] = self[n-i-1], self[i]] for [i] below [n // 2]. *)
  Fixpoint swaps (n i count : nat) (x : mexprs V) : mexprs V * res unit :=
    match count with
    | 0 => (x, Ok tt)
    | S c =>
        match nth_error (trees x) (n - i - 1), nth_error (trees x) i with
        | Some a, Some b =>
            match set (Z.of_nat i) (GTree a) x with
            | (x1, Err er) => (x1, Err er)
            | (x1, Ok _) =>
                match set (Z.of_nat (n - i - 1)) (GTree b) x1 with
                | (x2, Err er) => (x2, Err er)
                | (x2, Ok _) => swaps n (S i) c x2
                end
            end
        | _, _ => (x, Err IndexErr)
        end
    end.
  Definition reverse (x : mexprs V) : mexprs V * res unit :=
    let n := List.length (trees x) in swaps n 0 (n / 2) x.

  (** One operation of a user. *)
  Inductive eop :=
  | EInsert (k : Z) (g : given V) | EAppend (g : given V) | EExtend (gs : list (given V))
  | ESet (k : Z) (g : given V) | ESetSlice (g : given V)
  | EDel (k : Z) | EDelSlice (s : nat -> nat -> bool) | EPop (k : Z) | ERemove (p : ast V -> bool)
  | EClear | EReverse.
  Definition eop_run (o : eop) (x : mexprs V) : mexprs V * res unit :=
    match o with
    | EInsert k g => insert k g x
    | EAppend g => append g x
    | EExtend gs => extend gs x
    | ESet k g => set k g x
    | ESetSlice g => set_slice g x
    | EDel k => del k x
    | EDelSlice s => del_slice s x
    | EPop k => pop k x
    | ERemove p => remove p x
    | EClear => clear x
    | EReverse => reverse x
    end.
  (** Exceptions are caught by the user, who goes on. *)
  Definition eops_run (os : list eop) (x : mexprs V) : mexprs V :=
    fold_left (fun x o => fst (eop_run o x)) os x.
End ExprList.
Arguments EInsert {V}. Arguments EAppend {V}. Arguments EExtend {V}. Arguments ESet {V}. Arguments ESetSlice {V}.
Arguments EDel {V}. Arguments EDelSlice {V}. Arguments EPop {V}. Arguments ERemove {V}. Arguments EClear {V}.
Arguments EReverse {V}.

(** expressions.py:105-116 [ExprParser(text).parse()].  What follows the equation is not
    looked at; the model reads all tokens first, so an invalid character behind the
    equation is an error only in the model. *)
Definition parse_equation (N : Type) (float_of : text -> option N) (trunc : N -> option Z) (nzero : N) (t : text)
  : res (ast N) :=
  do ts <- tokenize N float_of Dynare t;
  do (lr, _) <- model_expression N trunc nzero (map tk ts);
  Ok (Bin BSub (fst lr) (snd lr)).
