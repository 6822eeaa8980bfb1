(** What a solved calibration is: every definition holds.  When it is circular. *)
From Verif Require Import Base Syntax Lexer Parser Eval EvalSpec Calib.
From Coq Require Import Relations.

Section Spec.
  Variable V : Type.
  Variable O : ops V.
  Variable float_of : text -> option V.
  Variable trunc : V -> option Z.
  Notation pdef := (pdef V).

  (** The expression a definition stands for. *)
  Definition means (p : pdef) (e : ast V) : Prop :=
    match p with
    | DNum v => e = Num v
    | DText t => parse_string V float_of trunc BaseStandard t = Ok e
    | DTree e' => e = e'
    | DBad => False
    end.

  (** Every parameter has a number: the value of its definition when names stand for
      the numbers of the other parameters. *)
  Definition satisfies (c : list (string * V)) (d : list (string * pdef)) : Prop :=
    keys c = keys d /\
    forall x p, In (x, p) d -> exists v e, lookup x c = Some v /\ means p e /\ evaluate V O (SDict c) e = Ok v.

  (** [x] is defined in terms of [y]. *)
  Definition depends (d : list (string * pdef)) (x y : string) : Prop :=
    exists p e, In (x, p) d /\ means p e /\ occurs V y e.
  Definition circular (d : list (string * pdef)) : Prop := exists x, clos_trans string (depends d) x x.

  (** Definitions are arithmetic expressions over the parameters. *)
  Definition over_params (d : list (string * pdef)) : Prop :=
    forall x p, In (x, p) d -> exists e, means p e /\ algebraic V e /\
      (forall y k, ~ occurs_t V y k e) /\ forall y, occurs V y e -> In y (keys d).

  (** The dictionary of definitions behind a calibration (a copied calibration is
      built on the calibration it copies). *)
  Fixpoint root_defs (k : calibration V) : list (string * pdef) :=
    match k with
    | Cal (Plain d) _ => d
    | Cal (Nested k') _ => root_defs k'
    end.

  (** Calibrations a program can come to have: created from a dictionary, copied,
      assigned to (successfully or not), deleted from. *)
  Inductive reachable : calibration V -> Prop :=
  | R_new d k : NoDup (keys d) -> new_calibration V O float_of trunc (Plain d) = Ok k -> reachable k
  | R_copy k k' : reachable k -> new_calibration V O float_of trunc (Nested k) = Ok k' -> reachable k'
  | R_set k x p k' er : reachable k -> set_param V O float_of trunc x p k = (k', er) -> reachable k'
  | R_del k x k' er : reachable k -> del_param V x k = (k', er) -> reachable k'.

  (** A history of assignments; the flag says whether each succeeded. *)
  Inductive history : calibration V -> list (string * pdef * bool) -> calibration V -> Prop :=
  | H_nil k : history k [] k
  | H_ok k x p k1 l k2 : set_param V O float_of trunc x p k = (k1, None) -> history k1 l k2 ->
      history k ((x, p, true) :: l) k2
  | H_err k x p e k1 l k2 : set_param V O float_of trunc x p k = (k1, Some e) -> history k1 l k2 ->
      history k ((x, p, false) :: l) k2.

  (** Evaluation itself does not raise a CalibrationError. *)
  Definition no_calib : Prop :=
    (forall o v w n, o_bin O o v w <> Err (CalibErr n)) /\ (forall o v n, o_un O o v <> Err (CalibErr n)) /\
    (forall o v w n, o_cmp O o v w <> Err (CalibErr n)) /\ (forall f v n, o_fun O f v <> Err (CalibErr n)).

  (** The values of the parameters of a file are final: the last definition of each is
      arithmetic on parameters assigned before it and not after. *)
  Definition settled (f : modfile V) : Prop :=
    let par x := In (x, "parameters"%string) (m_decls f) in
    (forall x, par x -> In x (keys (m_params f))) /\
    forall pre x e post, m_params f = pre ++ (x, e) :: post -> par x -> ~ In x (keys post) ->
      algebraic V e /\ (forall y k, ~ occurs_t V y k e) /\
      forall y, occurs V y e -> par y /\ y <> x /\ In y (keys pre) /\ ~ In y (keys post).
End Spec.
