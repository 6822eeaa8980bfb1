(** What it means that a model is linearised. *)
From Verif Require Import Base Syntax Eval EvalSpec Nd SimSpec IndexingSpec DynSpec CalcSpec.

Section LinearizeSpec.
  Variable F : Type.
  Variable O : rops F.
  Variable le : F -> F -> Prop.
  Notation partial := (partial F O le).

  (** What automatic differentiation promises.  [g] is the gradient of [f]: where [f] has all
      its partial derivatives, [g] returns them. *)
  Definition gradient (w : nat) (f : list F -> res F) (g : list F -> res (list F)) : Prop :=
    forall x, List.length x = w ->
      (forall j, j < w -> exists l, partial (fun y v => f y = Ok v) x j l) ->
      exists r, g x = Ok r /\ List.length r = w /\
        forall j l, j < w -> partial (fun y v => f y = Ok v) x j l -> nth_error r j = Some l.
  (** [h] is the matrix of derivatives of [g], a row for each entry of [g]. *)
  Definition matrix_of (w : nat) (g : list F -> res (list F)) (h : list F -> res (list (list F))) : Prop :=
    forall x, List.length x = w ->
      let entry c := fun y v => exists r, g y = Ok r /\ nth_error r c = Some v in
      (forall c j, c < w -> j < w -> exists l, partial (entry c) x j l) ->
      exists M, h x = Ok M /\ List.length M = w /\ Forall (fun r => List.length r = w) M /\
        forall c j l, c < w -> j < w -> partial (entry c) x j l ->
          exists r, nth_error M c = Some r /\ nth_error r j = Some l.

  (** A model. *)
  Variable P : ops F.
  Variable endog stoch : list string.
  Variable exprs : list (ast F).
  Variable params : list (string * F).

  (** The residual of an equation at given arguments [y]: the timed variables of the signature
      [l], then the shocks. *)
  Definition residual (l : list (nat * Z)) (e : ast F) (y : list F) (v : F) : Prop :=
    let a := firstn (List.length l) y in
    let u := skipn (List.length l) y in
    EvalSpec.value F P (plain F endog stoch params l a u) (at_time F endog l a) e v.
  (** The arguments at a steady state: every timed variable has its steady-state value and the
      shocks are zero. *)
  Definition rest_point (l : list (nat * Z)) (ss : list F) : list F :=
    map (fun p => nth (fst p) ss (r0 O)) l ++ repeat (r0 O) (List.length stoch).
  (** The residual when every variable is constant at [y] and there are no shocks. *)
  Definition steady_residual (e : ast F) (y : list F) (v : F) : Prop :=
    let rho := steady_plain F endog stoch params (r0 O) y in EvalSpec.value F P rho (fun x _ => rho x) e v.

  (** The equations are smooth at the steady state. *)
  Variable fns : string -> smooth_fun F.
  Variable pows : F -> smooth_fun F.
  Definition smooth_at (ss : list F) : Prop :=
    let rho := steady_plain F endog stoch params (r0 O) ss in
    Forall (fun e => exists v, tame F O fns pows (fun x => lookup x params <> None) rho (fun x _ => rho x) e v) exprs.

  (** Automatic differentiation works on the equations: on any function that computes the
      residual of one of them. *)
  Variable grad : (list F -> res F) -> list F -> res (list F).
  Variable jacobian : (list F -> res (list F)) -> list F -> res (list (list F)).
  Definition computes (w : nat) (f : list F -> res F) (R : list F -> F -> Prop) : Prop :=
    forall y, List.length y = w -> forall v, f y = Ok v <-> R y v.
  Definition differentiates (l : list (nat * Z)) : Prop :=
    let w := (List.length l + List.length stoch)%nat in
    forall e f, In e exprs -> computes w f (residual l e) ->
      gradient w f (grad f) /\ matrix_of w (grad f) (jacobian (grad f)).
  Definition differentiates_steady : Prop :=
    let w := List.length endog in
    forall e f, In e exprs -> computes w f (steady_residual e) -> gradient w f (grad f).
End LinearizeSpec.
