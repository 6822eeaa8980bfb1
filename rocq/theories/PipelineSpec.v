(** What is expected of the solution of a model that is read from a file. *)
From Verif Require Import Base Syntax Eval EvalSpec FactorySpec IndexingSpec DynSpec Nd SimSpec FirstOrderSpec SylvesterSpec CalcSpec LinearizeSpec AccuracySpec OutlineSpec CalibSpec.

(** The offsets at which the variables occur. *)
Definition occurs_with {F} (endog : list string) (exprs : list (ast F)) (L : list (list Z)) : Prop :=
  List.length L = List.length endog /\ forall i k, i < List.length endog -> (at_k L i k = true <-> occurs_at F endog exprs i k).

Section PipelineSpec.
  Variable F : Type.
  Variable O : rops F.
  Variable le : F -> F -> Prop.
  Variable P : ops F.

  (** A file whose names and offsets the equations can be compiled for: no name is another name
      followed by "m1" or "p1"; every variable occurs in the equations; the other names in the
      equations are shocks, parameters and local definitions; offsets are 1 and -1, and only
      variables have them; there are as many equations as variables. *)
  Definition names_of (f : modfile F) : list string :=
    named F "var" f ++ named F "varexo" f ++ named F "parameters" f ++ map fst (local_defs F f).
  Record plain_file (f : modfile F) : Prop := PlainFile {
    pf_clash : forall x y, In x (names_of f) -> In y (names_of f) -> x <> (y ++ "m1")%string /\ x <> (y ++ "p1")%string;
    pf_occurs : forall x, In x (named F "var" f) -> exists e, In e (equations F f) /\ (occurs F x e \/ exists k, occurs_t F x k e);
    pf_names : forall e x, In e (equations F f) -> occurs F x e -> In x (names_of f);
    pf_offsets : forall e x k, In e (equations F f) -> occurs_t F x k e -> In x (named F "var" f) /\ (k = (-1)%Z \/ k = 1%Z);
    pf_square : List.length (equations F f) = List.length (named F "var" f)
  }.

  (** [params] are the values that a file gives to its parameters, by its assignments in their
      order, and to its local definitions. *)
  Definition values_of (f : modfile F) (params : list (string * F)) : Prop :=
    exists rho rho', exec F P (nothing F P) (Syntax.m_params f) = Ok rho /\
      exec F P (parameters_only F P f rho) (local_defs F f) = Ok rho' /\
      (settled F f -> forall x, In x (named F "parameters" f) -> lookup x params = Some (rho x)) /\
      (forall x, In x (map fst (local_defs F f)) -> lookup x params = Some (rho' x)) /\
      (forall x, In x (keys params) <-> In x (named F "parameters" f) \/ In x (map fst (local_defs F f))).

  Variable endog stoch : list string.
  Variable params : list (string * F).
  Variable exprs : list (ast F).
  Variable ss : list F.

  (** The arrays solve the equations to first order around [ss] (as in C78): let last period's
      deviations [x], the shocks [u] and the outcomes of tomorrow's shocks, of mean zero, be
      scaled by [t]; let today follow the rule, and tomorrow for every outcome.  Then the
      expected value of each equation, divided by [t], goes to zero with [t]. *)
  Definition solves_first (gy gu : nd F) : Prop :=
    exists L g, occurs_with endog exprs L /\ about F L g /\ proper g /\ rk g = List.length stoch /\
      gy = squeeze F (M2 (rn g) (rs g) (ry g)) /\ gu = squeeze F (M2 (rn g) (rk g) (ru g)) /\
      forall (n : nat) (p : nat -> F) (e : nat -> nat -> F) (x u : nat -> F) (now : F -> nat -> F) (next : nat -> F -> nat -> F),
        centred F O (List.length stoch) n p e ->
        let lag t v := rmul O t (x v) in
        let shock t l := rmul O t (u l) in
        (forall t, decides F O g (lag t) (shock t) (now t)) ->
        (forall q t, q < n -> decides F O g (now t) (fun l => rmul O t (e q l)) (next q t)) ->
        Forall (expected_small F O le P endog stoch params (small1 F O le) n p ss lag now next shock) exprs.

  (** The same to second order (as in C79), for shocks with the covariance matrix [V]. *)
  Definition solves_second (V : nat -> nat -> F) (gy gu xx xu uu dl : nd F) : Prop :=
    exists L g, occurs_with endog exprs L /\ about F L g /\ proper g /\ rk g = List.length stoch /\
      gy = squeeze F (M2 (rn g) (rs g) (ry g)) /\ gu = squeeze F (M2 (rn g) (rk g) (ru g)) /\
      sized F xx (rn g) (rs g * rs g) /\ sized F xu (rn g) (rs g * rk g) /\ sized F uu (rn g) (rk g * rk g) /\ sized F dl (rn g) 1 /\
      forall (n : nat) (p : nat -> F) (e : nat -> nat -> F) (x u : nat -> F) (now : F -> nat -> F) (next : nat -> F -> nat -> F),
        centred F O (List.length stoch) n p e -> covariance F O (List.length stoch) n p e V ->
        let lag t v := rmul O t (x v) in
        let shock t l := rmul O t (u l) in
        (forall t, moves F O g xx xu uu dl (lag t) (shock t) (rmul O t t) (now t)) ->
        (forall q t, q < n -> moves F O g xx xu uu dl (now t) (fun l => rmul O t (e q l)) (rmul O t t) (next q t)) ->
        Forall (expected_small F O le P endog stoch params (small2 F O le) n p ss lag now next shock) exprs.
End PipelineSpec.
