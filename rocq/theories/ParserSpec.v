(** Specification of expression parsing, independent of the parser: the grammar
    of the docstrings, its unambiguous reading, and a printer. *)
From Verif Require Import Base Syntax Lexer.

Section Spec.
  Variable N : Type.
  Variable trunc : N -> option Z.
  (** Are period variables such as [x(-1)] atoms? (Inside the model block.) *)
  Variable m : bool.

  Definition sign_tok (u : uop) : tok N := match u with UPos => TSym Plus | UNeg => TSym Minus end.
  Definition signed (u : uop) (k : Z) : Z := match u with UPos => k | UNeg => (- k)%Z end.
  Definition cop_tok (o : cop) : tok N :=
    TSym match o with CLt => LTs | CLe => LTOE | CGt => GTs | CGe => GTOE | CEq => Equality end.
  Definition lp : tok N := TSym LPare.
  Definition rp : tok N := TSym RPare.

  (** ** The grammar of the docstrings (parser.py:64-203). *)
  Inductive nonterm := NAtom | NCall | NExponent | NTerm | NExpr.
  Inductive derives : nonterm -> ast N -> list (tok N) -> Prop :=
  | D_id x : derives NAtom (Var x) [TId x]
  | D_period x u n k : m = true -> trunc n = Some k ->
      derives NAtom (PVar x (signed u k)) [TId x; lp; sign_tok u; TNum n; rp]
  | D_num n : derives NAtom (Num n) [TNum n]
  | D_paren e ts : derives NExpr e ts -> derives NAtom e (lp :: ts ++ [rp])
  | D_unary u e ts : derives NTerm e ts -> derives NAtom (Un u e) (sign_tok u :: ts)
  | D_atom e ts : derives NAtom e ts -> derives NCall e ts
  | D_fun f e ts : derives NExpr e ts -> derives NCall (Fun f e) (TFun f :: lp :: ts ++ [rp])
  | D_call e ts : derives NCall e ts -> derives NExponent e ts
  | D_pow l r tl tr : derives NCall l tl -> derives NExponent r tr ->
      derives NExponent (Bin BPow l r) (tl ++ TSym Power :: tr)
  | D_exponent e ts : derives NExponent e ts -> derives NTerm e ts
  | D_mul l r tl tr : derives NTerm l tl -> derives NExponent r tr ->
      derives NTerm (Bin BMul l r) (tl ++ TSym Mul :: tr)
  | D_div l r tl tr : derives NTerm l tl -> derives NExponent r tr ->
      derives NTerm (Bin BDiv l r) (tl ++ TSym Div :: tr)
  | D_term e ts : derives NTerm e ts -> derives NExpr e ts
  | D_add l r tl tr : derives NExpr l tl -> derives NTerm r tr ->
      derives NExpr (Bin BAdd l r) (tl ++ TSym Plus :: tr)
  | D_sub l r tl tr : derives NExpr l tl -> derives NTerm r tr ->
      derives NExpr (Bin BSub l r) (tl ++ TSym Minus :: tr).

  (** A comparison: parser.py:183. *)
  Inductive derives_comp : ast N -> list (tok N) -> Prop :=
  | D_plain e ts : derives NExpr e ts -> derives_comp e ts
  | D_comp o l r tl tr : derives NExpr l tl -> derives NExpr r tr ->
      derives_comp (Comp o l r) (tl ++ cop_tok o :: tr).

  (** ** The printer: parentheses only where the precedences need them.

      Contexts: 0 a whole expression or the left of [+ -]; 1 the right of [+ -]
      or under a sign; 2 the left of [* /]; 3 the right of [* / ^]; 4 the left of
      [^].  [num_for k] is the literal written for the non-negative offset [k]. *)
  Variable num_for : Z -> N.
  Definition paren (b : bool) (ts : list (tok N)) : list (tok N) :=
    if b then lp :: ts ++ [rp] else ts.
  Definition bop_tok (o : bop) : tok N :=
    TSym match o with BAdd => Plus | BSub => Minus | BMul => Mul | BDiv => Div | BPow => Power end.
  Fixpoint print (ctx : nat) (e : ast N) : list (tok N) :=
    match e with
    | Num n => [TNum n]
    | Var x => [TId x]
    | PVar x k => [TId x; lp; if (k <? 0)%Z then TSym Minus else TSym Plus;
                   TNum (num_for (Z.abs k)); rp]
    | Un u e => paren (2 <=? ctx) (sign_tok u :: print 1 e)
    | Fun f e => TFun f :: lp :: print 0 e ++ [rp]
    | Bin ((BAdd | BSub) as o) l r => paren (1 <=? ctx) (print 0 l ++ bop_tok o :: print 1 r)
    | Bin ((BMul | BDiv) as o) l r => paren (3 <=? ctx) (print 2 l ++ bop_tok o :: print 3 r)
    | Bin BPow l r => paren (4 <=? ctx) (print 4 l ++ bop_tok BPow :: print 3 r)
    | Comp o l r => print 0 l ++ cop_tok o :: print 0 r
    end.

  (** Trees without comparisons inside; period variables only where allowed and
      with an offset that can be written. *)
  Fixpoint printable (e : ast N) : Prop :=
    match e with
    | Num _ | Var _ => True
    | PVar _ k => m = true /\ trunc (num_for (Z.abs k)) = Some (Z.abs k)
    | Un _ e | Fun _ e => printable e
    | Bin _ l r => printable l /\ printable r
    | Comp _ _ _ => False
    end.

  (** ** The unambiguous reading of the grammar.

      [reads j t o en e ts]: the tokens [ts] are read as [e].  [o] tells that
      [ts] ends inside the operand of a sign (whose operand extends as far as a
      product can), [en] what it ends with.  With [j = true] a function call may
      be preceded by further, ignored function calls. *)
  Inductive ending := EId | ECall | EOther.
  Variable j : bool.
  Inductive reads : nonterm -> bool -> ending -> ast N -> list (tok N) -> Prop :=
  | R_id x : reads NAtom false EId (Var x) [TId x]
  | R_period x u n k : m = true -> trunc n = Some k ->
      reads NAtom false EOther (PVar x (signed u k)) [TId x; lp; sign_tok u; TNum n; rp]
  | R_num n : reads NAtom false EOther (Num n) [TNum n]
  | R_paren o en e ts : reads NExpr o en e ts -> reads NAtom false EOther e (lp :: ts ++ [rp])
  | R_unary u o en e ts : reads NTerm o en e ts -> reads NAtom true en (Un u e) (sign_tok u :: ts)
  | R_atom o en e ts : reads NAtom o en e ts -> reads NCall o en e ts
  | R_fun f o en e ts : reads NExpr o en e ts ->
      reads NCall false ECall (Fun f e) (TFun f :: lp :: ts ++ [rp])
  | R_ignored f o en e ts g e' ts' : j = true -> reads NExpr o en e ts ->
      reads NCall false ECall e' (TFun g :: ts') ->
      reads NCall false ECall e' (TFun f :: lp :: ts ++ rp :: TFun g :: ts')
  | R_call o en e ts : reads NCall o en e ts -> reads NExponent o en e ts
  | R_pow en0 o en l r tl tr : reads NCall false en0 l tl -> reads NExponent o en r tr ->
      reads NExponent o en (Bin BPow l r) (tl ++ TSym Power :: tr)
  | R_exponent o en e ts : reads NExponent o en e ts -> reads NTerm o en e ts
  | R_mul en0 o en l r tl tr : reads NTerm false en0 l tl -> reads NExponent o en r tr ->
      reads NTerm o en (Bin BMul l r) (tl ++ TSym Mul :: tr)
  | R_div en0 o en l r tl tr : reads NTerm false en0 l tl -> reads NExponent o en r tr ->
      reads NTerm o en (Bin BDiv l r) (tl ++ TSym Div :: tr)
  | R_term o en e ts : reads NTerm o en e ts -> reads NExpr o en e ts
  | R_add o0 en0 o en l r tl tr : reads NExpr o0 en0 l tl -> reads NTerm o en r tr ->
      reads NExpr o en (Bin BAdd l r) (tl ++ TSym Plus :: tr)
  | R_sub o0 en0 o en l r tl tr : reads NExpr o0 en0 l tl -> reads NTerm o en r tr ->
      reads NExpr o en (Bin BSub l r) (tl ++ TSym Minus :: tr).

  (** Tokens that would continue what has been read. *)
  Definition continues (t : nonterm) (o : bool) (en : ending) (k : tok N) : bool :=
    match k with
    | TSym LPare => match en with EId => m | _ => false end
    | TFun _ => match en with ECall => true | _ => false end
    | TSym Power => o || match t with NAtom | NCall => false | _ => true end
    | TSym Mul | TSym Div => o || match t with NTerm | NExpr => true | _ => false end
    | TSym Plus | TSym Minus => match t with NExpr => true | _ => false end
    | _ => false
    end.
  Definition ends (t : nonterm) (o : bool) (en : ending) (rest : list (tok N)) : Prop :=
    match rest with [] => False | k :: _ => continues t o en k = false end.

  (** No function name directly behind a closing parenthesis. *)
  Fixpoint juxtaposed (ts : list (tok N)) : bool :=
    match ts with
    | TSym RPare :: ((TFun _ :: _) as ts') => true
    | _ :: ts' => juxtaposed ts'
    | [] => false
    end.
End Spec.
Arguments lp {N}. Arguments rp {N}.
