(** What reading a model file should give: executing its assignments in order. *)
From Verif Require Import Base Syntax Eval EvalSpec SemanticsSpec.

Section Spec.
  Variable V : Type.
  Variable O : ops V.
  Variable two : V.

  (** The values of names; None for a name without value. *)
  Definition env := string -> V.
  Definition nothing : env := fun _ => o_none O.
  Definition set (rho : env) (x : string) (v : V) : env := fun y => if String.eqb y x then v else rho y.

  (** The value of an expression when names have given values (see C11). *)
  Definition eval_in (rho : env) (e : ast V) : res V :=
    eval_with V O (fun x => Ok (rho x)) (fun _ _ => Err GenericErr) e.

  (** Executing assignments in order. *)
  Fixpoint exec (rho : env) (l : list (assignment V)) : res env :=
    match l with
    | [] => Ok rho
    | (x, e) :: l' => do v <- eval_in rho e; exec (set rho x v) l'
    end.

  (** The last element on which [p] is defined. *)
  Fixpoint last_such {A B} (p : A -> option B) (l : list A) : option B :=
    match l with
    | [] => None
    | a :: l' => match last_such p l' with Some b => Some b | None => p a end
    end.

  (** The expression a block assigns to [x]: the last one. *)
  Definition assigned (x : string) (l : list (assignment V)) : option (ast V) :=
    last_such (fun a : assignment V => if String.eqb x (fst a) then Some (snd a) else None) l.

  (** [rho] makes [d] the values that the block [l] assigns. *)
  Definition block_values (rho : env) (l : list (assignment V)) (d : list (string * V)) : Prop :=
    forall x v, lookup x d = Some v <-> exists e, assigned x l = Some e /\ eval_in rho e = Ok v.

  (** What a shocks block states about the shock [x]: its variance (the value of an
      expression, or its square), who it moves with, the correlation and covariance. *)
  Definition states_variance (x : string) (h : shock V) : option (bool * ast V) :=
    match h with
    | ShVar y e => if String.eqb x y then Some (false, e) else None
    | ShStd y e => if String.eqb x y then Some (true, e) else None
    | _ => None
    end.
  Definition states_other (x : string) (h : shock V) : option string :=
    match h with
    | ShCorr y z _ | ShCov y z _ => if String.eqb x y then Some z else None
    | _ => None
    end.
  Definition states_corr (x : string) (h : shock V) : option (ast V) :=
    match h with ShCorr y _ e => if String.eqb x y then Some e else None | _ => None end.
  Definition states_cov (x : string) (h : shock V) : option (ast V) :=
    match h with ShCov y _ e => if String.eqb x y then Some e else None | _ => None end.
  Definition moment (rho : env) (q : bool * ast V) : res V :=
    do v <- eval_in rho (snd q); if fst q then o_bin O BPow v two else Ok v.

  (** The period offsets with which a variable occurs in an expression. *)
  Inductive at_period (x : string) : Z -> ast V -> Prop :=
  | P_now : at_period x 0 (Var x)
  | P_time k : at_period x k (PVar x k)
  | P_un k o e : at_period x k e -> at_period x k (Un o e)
  | P_binl k o l r : at_period x k l -> at_period x k (Bin o l r)
  | P_binr k o l r : at_period x k r -> at_period x k (Bin o l r)
  | P_compl k o l r : at_period x k l -> at_period x k (Comp o l r)
  | P_compr k o l r : at_period x k r -> at_period x k (Comp o l r)
  | P_fun k f e : at_period x k e -> at_period x k (Fun f e).

  (** The assignments of a block. *)
  Definition assigns (b : option (boundary V)) : list (assignment V) :=
    match b with Some (_, l) => l | None => [] end.

  (** ** When the values of a file can be computed

      Arithmetic succeeds on numbers. *)
  Variable num : V -> Prop.
  Definition closed : Prop :=
    (forall o v w, num v -> num w -> exists u, o_bin O o v w = Ok u /\ num u) /\
    (forall o v, num v -> exists u, o_un O o v = Ok u /\ num u) /\
    (forall f v, num v -> exists u, o_fun O f v = Ok u /\ num u).
  (** No comparison, no lead or lag, literals are numbers, functions can be evaluated. *)
  Fixpoint arithmetic (e : ast V) : Prop :=
    match e with
    | Num n => num n
    | Var _ => True
    | PVar _ _ => False
    | Un _ e => arithmetic e
    | Bin _ l r => arithmetic l /\ arithmetic r
    | Fun f e => In f evaluated_funcs /\ arithmetic e
    | Comp _ _ _ => False
    end.
  (** Arithmetic on known names. *)
  Definition reads_only (known : string -> Prop) (e : ast V) : Prop :=
    arithmetic e /\ forall x, occurs V x e -> known x.

  (** Files whose values can be computed: of the four kinds of variables the outline
      knows; what is assigned is computed from what was assigned before; local
      definitions from parameters and earlier local definitions; a histval block
      needs an endval block. *)
  Definition computable (f : modfile V) : Prop :=
    Forall (fun d => In (snd d) ["parameters"; "varexo"; "varexo_det"; "var"]%string) (m_decls f) /\
    (forall pre x e post, m_params f = pre ++ (x, e) :: post -> reads_only (fun y => In y (keys pre)) e) /\
    (forall pre x e post, m_stmts f = pre ++ SLocal x e :: post ->
       reads_only (fun y => (In (y, "parameters"%string) (m_decls f) /\ In y (keys (m_params f))) \/ In y (locals V pre)) e) /\
    (forall x e, In (x, e) (assigns (a_initval (m_actions f)) ++ assigns (a_endval (m_actions f)) ++ assigns (a_histval (m_actions f))) ->
       reads_only (fun y => In y (keys (m_params f))) e) /\
    (forall a l h, a_shocks (m_actions f) = Some (a, l) -> In h l ->
       match h with
       | ShCorr _ _ e | ShCov _ _ e | ShVar _ e | ShStd _ e => reads_only (fun y => In y (keys (m_params f))) e
       | ShDet _ _ _ => True
       end) /\
    (a_histval (m_actions f) <> None -> a_endval (m_actions f) <> None).
End Spec.
