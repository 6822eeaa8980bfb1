(** The semantic check of a model file: model of pynare/parsing/semantics.py. *)
From Verif Require Import Base Syntax.

(** semantics.py:9-33: the [stype] of a symbol: [None] for the builtin type symbols,
    a builtin type symbol with its name, or the string 'non_model' (line 201). *)
Inductive stype := TyNone | TyKind (k : string) | TyString.

(** [symbol.stype.name]; neither None nor a string has a [name]. *)
Definition stype_name (t : stype) : res string :=
  match t with TyKind k => Ok k | _ => Err AttrErr end.

(** semantics.py:36-66.  A table with its enclosing tables, innermost first. *)
Definition table := list (string * stype).
Definition tables := list table.

(** semantics.py:107-126, inserted in every table. *)
Definition builtin_names : list string :=
  ["var"; "varexo"; "varexo_det"; "parameters"; "predetermined_variables"; "trend_var";
   "log_trend_var"; "non_model"]%string.
Definition builtins : table := map (fun k => (k, TyNone)) builtin_names.

(** semantics.py:54-55 *)
Definition insert (x : string) (t : stype) (s : tables) : tables :=
  match s with tb :: s' => update x t tb :: s' | [] => [] end.

(** semantics.py:57-66 *)
Fixpoint sym (x : string) (s : tables) : option stype :=
  match s with
  | [] => None
  | tb :: s' => match lookup x tb with Some t => Some t | None => sym x s' end
  end.

Section Check.
  Variable N : Type.

  (** semantics.py:344-393 on expressions. *)
  Fixpoint check_expr (s : tables) (e : ast N) : res unit :=
    match e with
    | Num _ => Ok tt
    | Var x => match sym x s with Some _ => Ok tt | None => Err NameErr end
    | PVar x _ =>
        match sym x s with
        | None => Err AttrErr                    (* lines 376-377: no [token] *)
        | Some t =>
            do k <- stype_name t;
            if String.eqb k "parameters" then Err AttrErr   (* lines 383-384 *) else Ok tt
        end
    | Un _ e => check_expr s e
    | Bin _ l r => do _ <- check_expr s l; check_expr s r
    | Fun _ e => check_expr s e
    | Comp _ _ _ => Err GenericErr               (* base.py:150-151 *)
    end.

  (** semantics.py:161-183 *)
  Definition check_decl (s : tables) (d : declaration) : res tables :=
    let (x, k) := d in
    let t := match sym k s with Some _ => TyKind k | None => TyNone end in
    match sym x s with
    | Some _ => Err NameErr
    | None => Ok (insert x t s)
    end.

  (** semantics.py:186-215 *)
  Definition check_assign (s : tables) (a : assignment N) : res tables :=
    let (x, e) := a in
    match sym x s with
    | None =>
        let s' := insert x TyString s in
        do _ <- check_expr s' e; Ok s'
    | Some t =>
        do k <- stype_name t;
        if String.eqb k "parameters" then do _ <- check_expr s e; Ok s else Err TypeErr
    end.

  Fixpoint foldM {A B} (f : B -> A -> res B) (b : B) (l : list A) : res B :=
    match l with
    | [] => Ok b
    | a :: l' => do b' <- f b a; foldM f b' l'
    end.

  (** semantics.py:242-265 *)
  Definition check_stmt (s : tables) (st : statement N) : res tables :=
    match st with
    | SLocal x e =>
        match sym x s with
        | Some _ => Err NameErr
        | None => do _ <- check_expr s e; Ok (insert x (TyKind "parameters") s)
        end
    | SEq _ l r => do _ <- check_expr s l; do _ <- check_expr s r; Ok s
    end.

  (** semantics.py:221-239: a table for the block, dropped at its end. *)
  Definition check_model (s : tables) (stmts : list (statement N)) : res tables :=
    do s' <- foldM check_stmt (builtins :: s) stmts; Ok (tl s').

  (** semantics.py:292-308 *)
  Definition check_bound (s : tables) (_ : unit) (a : assignment N) : res unit :=
    let (x, e) := a in
    match sym x s with
    | None => Err AttrErr
    | Some t =>
        do k <- stype_name t;
        if String.eqb k "var" then check_expr s e else Err TypeErr
    end.

  (** semantics.py:281-290.  A block object is true even if it is empty. *)
  Definition check_boundary (s : tables) (b : option (boundary N)) : res unit :=
    match b with
    | None => Ok tt
    | Some (_, l) => foldM (check_bound s) tt l
    end.

  (** semantics.py:311-318 *)
  Definition check_shock_symbol (s : tables) (x : string) : res unit :=
    match sym x s with
    | None => Err AttrErr
    | Some t =>
        do k <- stype_name t;
        if mem k ["varexo"; "varexo_det"]%string then Ok tt else Err TypeErr
    end.

  (** semantics.py:321-338; a deterministic shock has no attribute [expr]. *)
  Definition check_shock (s : tables) (_ : unit) (h : shock N) : res unit :=
    match h with
    | ShCorr x y e | ShCov x y e =>
        do _ <- check_shock_symbol s x; do _ <- check_expr s e; check_shock_symbol s y
    | ShVar x e | ShStd x e => do _ <- check_shock_symbol s x; check_expr s e
    | ShDet x _ _ => do _ <- check_shock_symbol s x; Err AttrErr
    end.

  (** semantics.py:276-278; with no shocks block [node.shocks] is None, for which
      there is no visitor (base.py:150-151). *)
  Definition check_actions (s : tables) (a : actions N) : res unit :=
    do _ <- check_boundary s (a_initval a);
    do _ <- check_boundary s (a_endval a);
    do _ <- check_boundary s (a_histval a);
    match a_shocks a with
    | None => Err GenericErr
    | Some (_, l) => foldM (check_shock s) tt l
    end.

  (** semantics.py:129-158 [DynareSemanticAnalyzer(parser).verify()] *)
  Definition verify (f : modfile N) : res unit :=
    do s1 <- foldM check_decl [builtins] (m_decls f);
    do s2 <- foldM check_assign s1 (m_params f);
    do s3 <- check_model s2 (m_stmts f);
    check_actions s3 (m_actions f).
End Check.
