(** Specification of evaluation: what value an expression has when the variables
    in it have given values. *)
From Verif Require Import Base Syntax Eval.

(** The functions of the language that have a value, and the numerical function each
    one stands for: [ln] and [log] are both the natural logarithm. *)
Definition language_functions : list (string * string) :=
  [("exp", "exp"); ("log", "log"); ("ln", "log"); ("log10", "log10"); ("sqrt", "sqrt"); ("abs", "abs");
   ("sign", "sign"); ("sin", "sin"); ("cos", "cos"); ("tan", "tan"); ("asin", "asin"); ("acos", "acos");
   ("atan", "atan"); ("erf", "erf")]%string.

Section Spec.
  Variable V : Type.
  Variable O : ops V.

  (** The values of variables and of lead and lagged variables. *)
  Variable rho : string -> V -> Prop.
  Variable rho_t : string -> Z -> V -> Prop.
  Inductive value : ast V -> V -> Prop :=
  | V_num v : value (Num v) v
  | V_var x v : rho x v -> value (Var x) v
  | V_pvar x k v : rho_t x k v -> value (PVar x k) v
  | V_un o e v w : value e v -> o_un O o v = Ok w -> value (Un o e) w
  | V_bin o l r v v' w : value l v -> value r v' -> o_bin O o v v' = Ok w -> value (Bin o l r) w
  | V_comp o l r v v' w : value l v -> value r v' -> o_cmp O o v v' = Ok w -> value (Comp o l r) w
  | V_fun f g e v w : In (f, g) language_functions -> value e v -> o_fun O g v = Ok w ->
      value (Fun f e) w.

  (** The variables (with no lead or lag) and timed variables of an expression. *)
  Inductive occurs : string -> ast V -> Prop :=
  | O_var x : occurs x (Var x)
  | O_un x o e : occurs x e -> occurs x (Un o e)
  | O_binl x o l r : occurs x l -> occurs x (Bin o l r)
  | O_binr x o l r : occurs x r -> occurs x (Bin o l r)
  | O_compl x o l r : occurs x l -> occurs x (Comp o l r)
  | O_compr x o l r : occurs x r -> occurs x (Comp o l r)
  | O_fun x f e : occurs x e -> occurs x (Fun f e).
  Inductive occurs_t : string -> Z -> ast V -> Prop :=
  | T_var x k : occurs_t x k (PVar x k)
  | T_un x k o e : occurs_t x k e -> occurs_t x k (Un o e)
  | T_binl x k o l r : occurs_t x k l -> occurs_t x k (Bin o l r)
  | T_binr x k o l r : occurs_t x k r -> occurs_t x k (Bin o l r)
  | T_compl x k o l r : occurs_t x k l -> occurs_t x k (Comp o l r)
  | T_compr x k o l r : occurs_t x k r -> occurs_t x k (Comp o l r)
  | T_fun x k f e : occurs_t x k e -> occurs_t x k (Fun f e).

  (** No comparison inside; only functions of the language; only functions that can
      be evaluated. *)
  Fixpoint algebraic (e : ast V) : Prop :=
    match e with
    | Num _ | Var _ | PVar _ _ => True
    | Un _ e | Fun _ e => algebraic e
    | Bin _ l r => algebraic l /\ algebraic r
    | Comp _ _ _ => False
    end.
  Fixpoint functions (ok : string -> Prop) (e : ast V) : Prop :=
    match e with
    | Num _ | Var _ | PVar _ _ => True
    | Un _ e => functions ok e
    | Fun f e => ok f /\ functions ok e
    | Bin _ l r | Comp _ l r => functions ok l /\ functions ok r
    end.
End Spec.

(** What a scope gives for a name: a mapping gives the value of the key; a nested
    scope gives the innermost value that is not None. *)
Section Scopes.
  Variable V : Type.
  Variable O : ops V.
  Inductive bound : scope V -> string -> V -> Prop :=
  | B_dict d x v : lookup x d = Some v -> bound (SDict d) x v
  | B_mem outer d inner x v :
      Forall (fun d' => forall w, lookup x d' = Some w -> o_isnone O w = true) inner ->
      lookup x d = Some v -> o_isnone O v = false ->
      bound (SMem (inner ++ d :: outer)) x v
  | B_none ds x :
      Forall (fun d' => forall w, lookup x d' = Some w -> o_isnone O w = true) ds ->
      bound (SMem ds) x (o_none O).
End Scopes.
