(** The linear system of a regime, from its equations: model of pynare/core/solve/binding.py:297-300,
    455-461, 831-854. *)
From Verif Require Import Base Syntax Eval Indexing DynFunc Nd Mat Linearize Occbin.

Section Piecewise.
  Variable F : Type.
  Variable O : rops F.
  Variable P : ops F.
  Variable grad : (list F -> res F) -> list F -> res (list F).

  (** binding.py:300, 459-461, 835: [alt.jacobian.array] is evaluated at the steady state [own] of
      the regime itself, [alt.dynamic_repr(...)] at the steady state [ref] of the reference model. *)
  Definition regime_of_model (m : repr F) (own ref : list F) : res (regime F) :=
    do A <- model_jacobian F P (r0 O) grad m own;
    do v <- translate_ss (r_index F m) (r0 O) ref;
    do d <- dynamic_call F P (r0 O) m v;
    Ok (Regime F (r_index F m) (match A with M2 _ _ J => J | V1 _ J => fun i _ => J i | S0 x => fun _ _ => x end) (fun i => nth i d (r0 O))).
  (** binding.py:297-300, 831-854: its matrices. *)
  Definition regime_system (m : repr F) (own ref : list F) : res (system F) :=
    do g <- regime_of_model m own ref;
    partition F O (g_index F g) (g_jac F g) (g_resid F g).
End Piecewise.
