(** What the second-order solution of a model should be. *)
From Verif Require Import Base Nd IndexingSpec SimSpec FirstOrderSpec.

Section SecondOrderSpec.
  Variable F : Type.
  Variable O : rops F.
  Local Notation "x + y" := (radd O x y).
  Local Notation "x * y" := (rmul O x y).
  Local Notation Sum := (Sum F O).
  Local Notation zero := (fun _ : nat => r0 O).

  (** The arguments of the equations, in the order of the columns of the Jacobian: timed
      variables, then shocks. *)
  Definition argument (lls : list (list Z)) (lag now next u : nat -> F) (c : nat) : F :=
    if c <? List.length (timed_vars lls) then dated F lag now next (nth c (timed_vars lls) (0%nat, 0%Z))
    else u (c - List.length (timed_vars lls))%nat.

  (** A decision rule with second derivatives: [XX i a b] of variable [order[i]] in two
      states, [XU i a l] in a state and a shock, [UU i l m] in two shocks.  [after] is the
      second derivative of the variables when the states and shocks move in two
      directions. *)
  Definition bends (g : rule F) (XX XU UU : nat -> nat -> nat -> F) (before u before' u' after : nat -> F) : Prop :=
    forall i, i < rn g -> after (var_at g i) =
      Sum (rs g) (fun a => Sum (rs g) (fun b => XX i a b * (before (state_at g a) * before' (state_at g b)))) +
      Sum (rs g) (fun a => Sum (rk g) (fun l => XU i a l * (before (state_at g a) * u' l + before' (state_at g a) * u l))) +
      Sum (rk g) (fun l => Sum (rk g) (fun m => UU i l m * (u l * u' m))).

  (** The second derivatives of the rule solve the model: take any two directions in which
      yesterday's values and the shocks may move, and let today follow the rule, and tomorrow
      without further shocks.  By the chain rule the second derivative of tomorrow is that of
      today, transmitted by the first derivatives, plus that of the rule along today's moves.
      Then the second derivative of every equation is zero.  [J] is the Jacobian of the
      equations and [H] their Hessian. *)
  Definition solves_second (lls : list (list Z)) (J : nat -> nat -> F) (H : nat -> nat -> nat -> F) (g : rule F)
      (XX XU UU : nat -> nat -> nat -> F) : Prop :=
    forall lag u now next, decides F O g lag u now -> decides F O g now zero next ->
    forall lag' u' now' next', decides F O g lag' u' now' -> decides F O g now' zero next' ->
    forall now2 carried bent next2,
      bends g XX XU UU lag u lag' u' now2 -> decides F O g now2 zero carried -> bends g XX XU UU now zero now' zero bent ->
      (forall v, v < rn g -> next2 v = carried v + bent v) ->
    let w := (List.length (timed_vars lls) + rk g)%nat in
    forall i, i < List.length lls ->
      Sum w (fun c => J i c * argument lls zero now2 next2 zero c) +
      Sum w (fun c => Sum w (fun d => H i c d * (argument lls lag now next u c * argument lls lag' now' next' u' d))) = r0 O.

  (** The term for uncertainty [C i], the second derivative of variable [order[i]] in the
      scale of tomorrow's shocks, whose covariance matrix is [V]: expected over tomorrow's
      shocks, the second derivative of every equation is zero.  [reply l] is tomorrow's
      response to shock [l] of tomorrow. *)
  Definition solves_uncertainty (lls : list (list Z)) (J : nat -> nat -> F) (H : nat -> nat -> nat -> F) (g : rule F)
      (UU : nat -> nat -> nat -> F) (V : nat -> nat -> F) (C : nat -> F) : Prop :=
    forall now2 carried next2,
      (forall i, i < rn g -> now2 (var_at g i) = C i) -> decides F O g now2 zero carried ->
      (forall i, i < rn g -> next2 (var_at g i) =
         carried (var_at g i) + C i + Sum (rk g) (fun l => Sum (rk g) (fun m => UU i l m * V l m))) ->
    forall reply, (forall l, l < rk g -> decides F O g zero (fun m => if m =? l then r1 O else r0 O) (reply l)) ->
    let w := (List.length (timed_vars lls) + rk g)%nat in
    forall i, i < List.length lls ->
      Sum w (fun c => J i c * argument lls zero now2 next2 zero c) +
      Sum (rk g) (fun l => Sum (rk g) (fun m => V l m *
        Sum w (fun c => Sum w (fun d => H i c d * (argument lls zero zero (reply l) zero c * argument lls zero zero (reply m) zero d))))) = r0 O.
End SecondOrderSpec.
