(** Syntax trees: model of pynare/parsing/ast.py.  Trees keep the values of the
    tokens they were built from; token locations are dropped. *)
From Verif Require Export Base.

(** The operator tokens that occur in trees. *)
Inductive bop := BAdd | BSub | BMul | BDiv | BPow.
Inductive uop := UPos | UNeg.
Inductive cop := CLt | CLe | CGt | CGe | CEq.

(** ast.py:89-184.  [PVar x k] is a PeriodVar with [period_offset = k]. *)
Inductive ast (N : Type) :=
| Num (n : N)
| Var (x : string)
| PVar (x : string) (k : Z)
| Un (o : uop) (e : ast N)
| Bin (o : bop) (l r : ast N)
| Fun (f : string) (e : ast N)
| Comp (o : cop) (l r : ast N).
Arguments Num {N} n. Arguments Var {N} x. Arguments PVar {N} x k. Arguments Un {N} o e.
Arguments Bin {N} o l r. Arguments Fun {N} f e. Arguments Comp {N} o l r.

Section Nodes.
  Variable N : Type.

  (** ast.py:264-275: Argument; the value is a STRING or ID token, a tree, or None. *)
  Inductive argval := AStr (s : string) | AId (s : string) | AExpr (e : ast N).
  Record argument := Arg { arg_key : string; arg_val : option argval }.

  (** ast.py:200-211 VarDeclaration (name, type) and 214-227 VarAssignment. *)
  Definition declaration := (string * string)%type.
  Definition assignment := (string * ast N)%type.

  (** ast.py:300-322: ModelExpression (with its tag) and LocalModelDeclaration. *)
  Inductive statement :=
  | SLocal (x : string) (e : ast N)
  | SEq (tag : option (list argument)) (l r : ast N).

  (** ast.py:362-398: StochasticShock by shock_type, and DeterministicShock. *)
  Inductive shock :=
  | ShCorr (x y : string) (e : ast N)
  | ShCov (x y : string) (e : ast N)
  | ShVar (x : string) (e : ast N)
  | ShStd (x : string) (e : ast N)
  | ShDet (x : string) (periods : list (N * N)) (values : list (ast N)).

  (** ast.py:251-258, 329-360: ArgCompoundASTList of assignments or shocks, ModelActions. *)
  Definition boundary := (list argument * list assignment)%type.
  Record actions := Actions {
    a_initval : option boundary;
    a_endval : option boundary;
    a_histval : option boundary;
    a_shocks : option (list argument * list shock)
  }.

  (** ast.py:72-82, 190-197, 282-298. *)
  Record modfile := ModFile {
    m_decls : list declaration;
    m_params : list assignment;
    m_args : list argument;
    m_stmts : list statement;
    m_actions : actions
  }.
End Nodes.
Arguments AStr {N} s. Arguments AId {N} s. Arguments AExpr {N} e.
Arguments Arg {N}. Arguments arg_key {N}. Arguments arg_val {N}.
Arguments SLocal {N}. Arguments SEq {N}.
Arguments ShCorr {N}. Arguments ShCov {N}. Arguments ShVar {N}. Arguments ShStd {N}. Arguments ShDet {N}.
Arguments Actions {N}. Arguments a_initval {N}. Arguments a_endval {N}. Arguments a_histval {N}.
Arguments a_shocks {N}.
Arguments ModFile {N}. Arguments m_decls {N}. Arguments m_params {N}. Arguments m_args {N}.
Arguments m_stmts {N}. Arguments m_actions {N}.
