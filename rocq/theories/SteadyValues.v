(** The values of the steady state: model of pynare/core/steady.py:25-107, 135-196. *)
From Verif Require Import Base Syntax Eval Factory Indexing DynFunc Nd Linearize Steady.

Section SteadyValues.
  Variable F : Type.
  Variable O : rops F.
  Variable P : ops F.
  (** [scipy.optimize.minimize(fun, x0, method, **kwargs).x] for the two methods: conjugate
      gradients (steady.py:160-165) and Nelder-Mead (191-196).  Whether the routine reports
      success is not looked at. *)
  Variable minimize : solver -> (list F -> res F) -> list F -> res (list F).

  (** steady.py:86-107 [_define_simple_least_squares], with [vectorize_functions] of
      expressions.py:533-554: the squares of the steady equations, summed. *)
  Definition least_squares (m : repr F) (x : list F) : res F :=
    do r <- mapM (fun f => f x) (steady_funcs F P (r0 O) m);
    Ok (rsum F O (List.length r) (fun i => rmul O (nth i r (r0 O)) (nth i r (r0 O)))).
  (** steady.py:51-59 [SteadyState.compute]; [initial] is [model.initial] (158, 189). *)
  Definition steady_values (language : string) (method : method) (m : repr F) (initial : list F) : res (list F) :=
    do s <- compute language method;
    minimize s (least_squares m) initial.
End SteadyValues.
