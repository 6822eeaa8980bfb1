(** Evaluating and substituting in syntax trees: model of pynare/parsing/base.py
    and of the visitors of pynare/core/expressions.py. *)
From Verif Require Import Base Syntax Lexer Parser.

(** Python values and operators (floats, autograd boxes, booleans, None).  The
    operators may raise.  [o_fun f] is the numpy or scipy function used for [f]
    (base.py:225-277), e.g. [np.arcsin] for [asin]. *)
Record ops (V : Type) := Ops {
  o_none : V;                        (* None *)
  o_isnone : V -> bool;              (* [v is None] *)
  o_bin : bop -> V -> V -> res V;
  o_un : uop -> V -> res V;
  o_cmp : cop -> V -> V -> res V;
  o_fun : string -> V -> res V
}.
Arguments o_none {V}. Arguments o_isnone {V}. Arguments o_bin {V}. Arguments o_un {V}.
Arguments o_cmp {V}. Arguments o_fun {V}.

(** base.py:225-277: which functions are evaluated and which are refused. *)
Definition evaluated_funcs : list string :=
  ["exp"; "log"; "ln"; "log10"; "sqrt"; "abs"; "sign"; "sin"; "cos"; "tan"; "asin";
   "acos"; "atan"; "erf"]%string.
Definition refused_funcs : list string := ["max"; "min"; "normcdf"; "normpdf"]%string.
(** base.py:231: [ln] and [log] are the same function. *)
Definition func_name (f : string) : string := if String.eqb f "ln" then "log"%string else f.

Section Eval.
  Variable V : Type.
  Variable O : ops V.

  (** base.py:178-277, with the two visitors that subclasses redefine as arguments.
      A ModelExpression (base.py:178-180) is the tree [Bin BSub left right]: every
      visitor treats it as such. *)
  Section Visit.
    Variable visit_Var : string -> res V.
    Variable visit_PeriodVar : string -> Z -> res V.
    Fixpoint eval_with (e : ast V) : res V :=
      match e with
      | Num v => Ok v
      | Var x => visit_Var x
      | PVar x k => visit_PeriodVar x k
      | Un o e => do v <- eval_with e; o_un O o v
      | Bin o l r => do v <- eval_with l; do w <- eval_with r; o_bin O o v w
      | Comp o l r => do v <- eval_with l; do w <- eval_with r; o_cmp O o v w
      | Fun f e =>
          if mem f refused_funcs then Err NotImplErr
          else if mem f evaluated_funcs then do v <- eval_with e; o_fun O (func_name f) v
          else Ok (o_none O)
      end.
  End Visit.

  (** A scope is a mapping, or a ScopedMemory (factory.py:111-132): its own symbols
      followed by those of the enclosing scopes. *)
  Inductive scope := SDict (d : list (string * V)) | SMem (ds : list (list (string * V))).

  (** factory.py:123-132.  A symbol whose value is None counts as missing. *)
  Fixpoint mem_lookup (x : string) (ds : list (list (string * V))) : V :=
    match ds with
    | [] => o_none O
    | d :: ds' =>
        match lookup x d with
        | Some v => if o_isnone O v then mem_lookup x ds' else v
        | None => mem_lookup x ds'
        end
    end.

  (** base.py:215-223 *)
  Definition scope_get (s : scope) (x : string) : res V :=
    match s with
    | SDict d => match lookup x d with Some v => Ok v | None => Err SyntaxErr end
    | SMem ds => Ok (mem_lookup x ds)
    end.

  (** base.py:154-277 [BaseEvaluator(tree, scope)]; there is no visit_PeriodVar:
      base.py:150-151. *)
  Definition evaluate (s : scope) (e : ast V) : res V :=
    eval_with (scope_get s) (fun _ _ => Err GenericErr) e.

  (** api.py:62-89 [evaluate] on a string. *)
  Definition evaluate_text (float_of : text -> option V) (trunc : V -> option Z)
      (g : cfg) (t : text) (s : scope) : res V :=
    do e <- parse_string V float_of trunc g t; evaluate s e.

  (** ** Substitution: base.py:291-350.

      [sub_var] and [sub_pvar] say what [maybe_substitute] puts in the place of a
      variable below a node.  The tree is a deep copy (base.py:141-142), so the
      original is not changed.  In visit_Function (base.py:348-350) the substitution
      comes before the visit; as a substituted child is a number, which is not
      changed by the visit, and an operator is not substituted, the order is
      immaterial and written as in the other cases. *)
  Section Subst.
    Variable sub_var : string -> option V.
    Variable sub_pvar : string -> Z -> option V.
    Definition maybe_substitute (e : ast V) : ast V :=
      match e with
      | Var x => match sub_var x with Some v => Num v | None => e end
      | PVar x k => match sub_pvar x k with Some v => Num v | None => e end
      | _ => e
      end.
    Fixpoint subst_with (e : ast V) : res (ast V) :=
      match e with
      | Num _ | Var _ | PVar _ _ => Ok e
      | Un o e => do e' <- subst_with e; Ok (Un o (maybe_substitute e'))
      | Bin o l r =>
          do l' <- subst_with l;
          do r' <- subst_with r;
          Ok (Bin o (maybe_substitute l') (maybe_substitute r'))
      | Fun f e => do e' <- subst_with e; Ok (Fun f (maybe_substitute e'))
      | Comp _ _ _ => Err GenericErr
      end.
  End Subst.

  (** base.py:305-320: the value found unless it is None. *)
  Definition found (s : scope) (x : string) : option V :=
    let ov := match s with SDict d => lookup x d | SMem ds => Some (mem_lookup x ds) end in
    match ov with Some v => if o_isnone O v then None else Some v | None => None end.

  (** base.py:280-303 [ASTSubstitution(tree, scope)] *)
  Definition substitute (s : scope) (e : ast V) : res (ast V) :=
    subst_with (found s) (fun _ _ => None) e.

  (** ** The compiled functions of a model *)

  (** expressions.py:394-420 [_SteadyStateSubstitution] *)
  Definition steady_substitution (params : list (string * V)) (e : ast V) : res (ast V) :=
    subst_with (fun x => lookup x params) (fun x _ => lookup x params) e.

  (** expressions.py:424-461 [_DynamicSubsitution] *)
  Definition dynamic_substitution (params : list (string * V)) (e : ast V) : res (ast V) :=
    subst_with (fun x => lookup x params) (fun _ _ => None) e.

  (** expressions.py:386-390, 457-461 *)
  Definition timed_name (x : string) (k : Z) : string :=
    if (0 <? k)%Z then (x ++ "p1")%string else (x ++ "m1")%string.

  (** [not_provided]: the leaves below a node that are not substituted
      (expressions.py:408-420, 443-461).  [leaf_var] and [leaf_pvar] give the name
      recorded for a leaf, if any. *)
  Section NotProvided.
    Variable leaf_var : string -> option string.
    Variable leaf_pvar : string -> Z -> option string.
    Definition opt_list (o : option string) : list string :=
      match o with Some x => [x] | None => [] end.
    Definition leaf (e : ast V) : list string :=
      match e with
      | Var x => opt_list (leaf_var x)
      | PVar x k => opt_list (leaf_pvar x k)
      | _ => []
      end.
    Fixpoint not_provided (e : ast V) : list string :=
      match e with
      | Num _ | Var _ | PVar _ _ | Comp _ _ _ => []
      | Un _ e | Fun _ e => not_provided e ++ leaf e
      | Bin _ l r => not_provided l ++ not_provided r ++ leaf l ++ leaf r
      end.
  End NotProvided.
  Definition absent (params : list (string * V)) (x : string) : option string :=
    match lookup x params with Some _ => None | None => Some x end.
  Definition steady_not_provided params :=
    not_provided (absent params) (fun x _ => absent params x).
  Definition dynamic_not_provided params :=
    not_provided (absent params) (fun x k => Some (timed_name x k)).

  (** A dictionary comprehension [{e: a[i] for i, e in enumerate(names) if e in keep}]:
      a later position of the same name overwrites.  IndexError if there are more
      kept names than values. *)
  Fixpoint named_values (names : list string) (vals : list V) (keep : list string)
    (acc : list (string * V)) : res (list (string * V)) :=
    match names with
    | [] => Ok acc
    | x :: names' =>
        if mem x keep then
          match vals with
          | v :: vals' => named_values names' vals' keep (update x v acc)
          | [] => Err IndexErr
          end
        else named_values names' (tl vals) keep acc
    end.

  (** Integer zero, returned for exogenous variables. *)
  Variable zero : V.

  (** expressions.py:234-306 [steady_func] and [SteadyFunc]. *)
  Definition steady_func (e : ast V) (endo : list string) (params : list (string * V))
      (ss : list V) : res V :=
    do e' <- steady_substitution params e;
    do d <- named_values endo ss (steady_not_provided params e) [];
    let get x := Ok (match lookup x d with Some v => v | None => zero end) in
    eval_with get (fun x _ => get x) e'.

  (** expressions.py:310-390 [dynamic_func] and [DynamicFunc]; [dyn_vars] are the
      timed names in the order of the signature. *)
  Definition dynamic_func (e : ast V) (dyn_vars : list string) (params : list (string * V))
      (dyn : list V) : res V :=
    do e' <- dynamic_substitution params e;
    do d <- named_values dyn_vars dyn (dynamic_not_provided params e) [];
    let get x := match lookup x d with Some v => Ok v | None => Err KeyErr end in
    eval_with get (fun x k => get (timed_name x k)) e'.
End Eval.
Arguments SDict {V}. Arguments SMem {V}.
