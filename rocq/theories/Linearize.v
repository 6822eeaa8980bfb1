(** The Jacobian and Hessian arrays of a model: model of pynare/core/linearizing.py. *)
From Verif Require Import Base Syntax Eval Factory Indexing DynFunc Nd.

Section Linearize.
  Variable F : Type.
  Variable P : ops F.
  Variable zero : F.
  (** [autograd.grad] and [autograd.jacobian]: from a function of an array to its gradient, and
      from a function of an array whose value is an array to its matrix of derivatives. *)
  Variable grad : (list F -> res F) -> list F -> res (list F).
  Variable jacobian : (list F -> res (list F)) -> list F -> res (list (list F)).

  (** expressions.py:169-196: the functions of the equations, in order ([func_list]). *)
  Definition dynamic_funcs (m : repr F) : list (list F -> res F) :=
    map (fun e => dynamic_func F P e (dyn_vars (r_index F m) (r_endog F m) (r_stoch F m)) (r_params F m)) (r_exprs F m).
  (** expressions.py:159-165 *)
  Definition steady_funcs (m : repr F) : list (list F -> res F) :=
    map (fun e => steady_func F P zero e (r_endog F m) (r_params F m)) (r_exprs F m).

  (** linearizing.py:47, 144: [a[i, :] = row].  A row of one entry is broadcast. *)
  Definition put_row (w : nat) (r : list F) : res (list F) :=
    if List.length r =? w then Ok r
    else if List.length r =? 1 then Ok (repeat (nth 0 r zero) w) else Err ValueErr.
  Definition stack_rows (w : nat) (rows : list (list F)) : nd F :=
    M2 (List.length rows) w (fun i j => nth j (nth i rows []) zero).

  (** linearizing.py:29-33, 36-49: [Linearization.array] with the derivatives of
      [differentiate_functions].  The functions are differentiated when the object is made
      and the array is computed when it is asked for (and kept). *)
  Definition linearization_array (funcs : list (list F -> res F)) (ss : list F) : res (nd F) :=
    let w := List.length ss in
    do rows <- mapM (fun f => do r <- grad f ss; put_row w r) funcs;
    Ok (stack_rows w rows).
  (** linearizing.py:73-88 [SteadyJacobian]; [ss] are the steady-state values. *)
  Definition steady_jacobian (m : repr F) (ss : list F) : res (nd F) := linearization_array (steady_funcs m) ss.
  (** linearizing.py:96-106 [ModelJacobian]; the point is that of lines 52-63. *)
  Definition model_jacobian (m : repr F) (ss : list F) : res (nd F) :=
    linearization_array (dynamic_funcs m) (steady_point F zero m ss).
  (** linearizing.py:110-146 [ModelHessian]: the derivatives of the gradients (122-126), each
      matrix row by row in one row ([flatten('C')], 144).  The matrices that [jacobian] returns
      are square, as many rows as arguments: otherwise the assignment is an error (a matrix of
      another shape with as many entries does not arise). *)
  Definition square (w : nat) (h : list (list F)) : bool :=
    (List.length h =? w) && forallb (fun r => List.length r =? w) h.
  Definition model_hessian (m : repr F) (ss : list F) : res (nd F) :=
    let x := steady_point F zero m ss in
    let w := List.length x in
    do hs <- mapM (fun f => do h <- jacobian (grad f) x; if square w h then Ok h else Err ValueErr) (dynamic_funcs m);
    Ok (M2 (List.length hs) (w * w) (fun i p => nth (p mod w) (nth (p / w) (nth i hs []) []) zero)).
End Linearize.
