(** What is expected of the statistics of a model after a history of operations. *)
From Verif Require Import Base Syntax Eval Vars ModelState ModelStateSpec Nd SimSpec FirstOrderSpec SylvesterSpec CalcSpec AccuracySpec PipelineSpec MomentsSpec Pipeline StatsState.

Section Histories.
  Variable F : Type.

  (** How far a model is solved, as its user can tell from what they did: never since it was
      made; before a change; or since the last change. *)
  Inductive phase := Unsolved | Stale | Settled.

  (** What a history of operations and questions does to it. *)
  Definition after (ph : phase) (o : sop F) {A} (r : res A) : phase :=
    match r with
    | Err _ => Stale
    | Ok _ =>
        match o with
        | Do (Solve _) | Do (Simulate (S _)) => Settled
        | Do ReadSolution | Do (Simulate 0) | Ask _ => match ph with Unsolved => Settled | _ => ph end
        | Do (Read _) => ph
        | Do _ => match ph with Unsolved => Unsolved | _ => Stale end
        end
    end.
  (** The questions about moments; the others ask for the parts of the state space, or for the
      decomposition of variances. *)
  Definition moment (q : query) : Prop :=
    match q with Mean | Var | Std | Cov | Corr | Autocov _ | Autocorr _ => True | _ => False end.
  (** A question is asked in time: the model was solved after its last change, or it was never
      solved (then the question solves it). *)
  Definition in_time (ph : phase) (q : query) : Prop :=
    match ph with Settled => True | Unsolved => moment q | Stale => False end.
  Fixpoint orderly {A} (ph : phase) (l : list (sop F * res A)) : Prop :=
    match l with
    | [] => True
    | (o, r) :: l' => match o with Ask q => in_time ph q | Do _ => True end /\ orderly (after ph o r) l'
    end.
  Fixpoint phase_after {A} (ph : phase) (l : list (sop F * res A)) : phase :=
    match l with [] => ph | (o, r) :: l' => phase_after (after ph o r) l' end.

  (** The operations of a history, without the questions. *)
  Definition operations (os : list (sop F)) : list (op F) :=
    flat_map (fun o => match o with Do o => [o] | Ask _ => [] end) os.
  (** No addition raised; everything that raised was followed by an addition (as in
      ModelStateSpec). *)
  Definition all_made {A} (l : list (sop F * res A)) : Prop := forall o e, In (Do o, Err e) l -> ~ addition F o.
  Definition mended {A} (l : list (sop F * res A)) : Prop :=
    forall l1 o e l2, l = (l1 ++ (o, Err e) :: l2)%list -> exists o' r, In (Do o', r) l2 /\ addition F o'.
End Histories.

Section Answers.
  Variable F : Type.
  Variable O : rops F.
  Variable le : F -> F -> Prop.
  Variable P : ops F.
  Variable sqrt : F -> F.

  (** The rule [g] solves the equations to first order around [ss] (PipelineSpec.solves_first,
      of a rule instead of its arrays). *)
  Definition solving_rule (endog stoch : list string) (params : list (string * F)) (exprs : list (ast F)) (ss : list F) (g : rule F) : Prop :=
    exists L, occurs_with endog exprs L /\ about F L g /\ proper g /\ rk g = List.length stoch /\
      forall (n : nat) (p : nat -> F) (e : nat -> nat -> F) (x u : nat -> F) (now : F -> nat -> F) (next : nat -> F -> nat -> F),
        centred F O (List.length stoch) n p e ->
        let lag t v := rmul O t (x v) in
        let shock t l := rmul O t (u l) in
        (forall t, decides F O g (lag t) (shock t) (now t)) ->
        (forall q t, q < n -> decides F O g (now t) (fun l => rmul O t (e q l)) (next q t)) ->
        Forall (expected_small F O le P endog stoch params (small1 F O le) n p ss lag now next shock) exprs.

  (** An answer gives the moments of the stationary processes that follow the rule [g], for
      shocks with the covariance matrix [Sg]; lagged moments are with the variables [i+1] periods
      before (C45). *)
  Definition at_dates (g : rule F) (Sg : nat -> nat -> F) (f : forall R : randoms F, (nat -> nat -> rv R) -> nat -> Prop) : Prop :=
    forall (R : randoms F) y u, lawful F O R -> follows F O R g Sg y u -> stationary F R g y -> forall t, f R y t.
  Definition scaled (c a b : F) : F := rdiv O c (rmul O (sqrt a) (sqrt b)).
  Definition reports (g : rule F) (Sg : nat -> nat -> F) (q : query) (a : answer F) : Prop :=
    match q with
    | Cov => exists C, a = Array (M2 (rn g) (rn g) C) /\
        at_dates g Sg (fun R y t => forall v w, v < rn g -> w < rn g -> C v w = covariance R (y t v) (y t w))
    | Var => exists C, a = Array (V1 (rn g) C) /\
        at_dates g Sg (fun R y t => forall v, v < rn g -> C v = covariance R (y t v) (y t v))
    | Std => exists C, a = Array (V1 (rn g) C) /\
        at_dates g Sg (fun R y t => forall v, v < rn g -> C v = sqrt (covariance R (y t v) (y t v)))
    | Corr => exists C, a = Array (M2 (rn g) (rn g) C) /\
        at_dates g Sg (fun R y t => forall v w, v < rn g -> w < rn g ->
          C v w = scaled (covariance R (y t v) (y t w)) (covariance R (y t v) (y t v)) (covariance R (y t w) (y t w)))
    | Autocov p => exists l, a = Arrays l /\ (0 <= p)%Z /\ List.length l = Z.to_nat p /\
        forall i, i < Z.to_nat p -> exists C, nth i l (S0 (r0 O)) = M2 (rn g) (rn g) C /\
        at_dates g Sg (fun R y t => forall v w, v < rn g -> w < rn g -> C v w = covariance R (y (t + S i) v) (y t w))
    | Autocorr p => exists l, a = Arrays l /\ (0 <= p)%Z /\ List.length l = Z.to_nat p /\
        forall i, i < Z.to_nat p -> exists C, nth i l (S0 (r0 O)) = M2 (rn g) (rn g) C /\
        at_dates g Sg (fun R y t => forall v w, v < rn g -> w < rn g ->
          C v w = scaled (covariance R (y (t + S i) v) (y t w)) (covariance R (y t v) (y t v)) (covariance R (y t w) (y t w)))
    | _ => False
    end.
  (** The arrays of a solution that are those of the rule to first order. *)
  Definition first_arrays (s : rules F) : nd F * nd F :=
    match s with First gy gu => (gy, gu) | Second gy gu _ _ _ _ => (gy, gu) end.
  (** The questions that have such answers. *)
  Definition second_moment (q : query) : Prop :=
    match q with Var | Std | Cov | Corr | Autocov _ | Autocorr _ => True | _ => False end.
End Answers.
