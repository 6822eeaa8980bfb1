(** What a model file says of its model: names in the order of declaration, equations in
    the order of the block. *)
From Verif Require Import Base Syntax Eval EvalSpec FactorySpec.

Section Spec.
  Variable V : Type.
  Variable O : ops V.

  (** The names declared as [k]. *)
  Definition named (k : string) (f : modfile V) : list string :=
    map fst (filter (fun d => String.eqb (snd d) k) (m_decls f)).

  (** The equations of the model block, [l = r] as [l - r]. *)
  Definition equations (f : modfile V) : list (ast V) :=
    flat_map (fun s => match s with SEq _ l r => [Bin BSub l r] | SLocal _ _ => [] end) (m_stmts f).

  (** Its local definitions. *)
  Definition local_defs (f : modfile V) : list (assignment V) :=
    flat_map (fun s => match s with SLocal x e => [(x, e)] | SEq _ _ _ => [] end) (m_stmts f).

  (** Where local definitions start: parameters have values, and nothing else. *)
  Definition parameters_only (f : modfile V) (rho : env V) : env V :=
    fun x => if mem x (named "parameters" f) then rho x else o_none O.
End Spec.
