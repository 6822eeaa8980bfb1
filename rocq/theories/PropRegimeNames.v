(** C68 for models: the functions that solve with given models (binding.py:227-551) refuse
    models that do not share their variables, shocks and parameters. *)
From Verif Require Import Base Lexer Syntax Eval Factory Calib Indexing DynFunc Vars ExprList ModelState Nd Mat Linearize Steady SteadyValues FirstOrder SecondOrder Pipeline
  Constraint Occbin Piecewise PiecewiseSim PropOccbin.
From Coq Require Import Permutation.

Section Shared.
  Variable F : Type.
  (** Two models with the same variables and shocks, in the same order, and the same parameters
      in any order. *)
  Definition shared_names (d d' : defs F) : Prop :=
    map ev_name (d_endog F d) = map ev_name (d_endog F d') /\ map sv_name (d_stoch F d) = map sv_name (d_stoch F d') /\
    Permutation (keys (solved F (d_params F d))) (keys (solved F (d_params F d'))).
End Shared.

Lemma goes_with_shared F (m m' : mstate F (space_of F) (rules F)) :
  goes_with F m m' = Ok tt -> shared_names F (definition _ _ _ m) (definition _ _ _ m').
Proof.
  unfold goes_with, names_of, endog_names, stoch_names; intros H.
  destruct (d_en_ok F (definition _ _ _ m)); [|discriminate H]; cbn [bind] in H; destruct (d_st_ok F (definition _ _ _ m)); [|discriminate H]; cbn [bind] in H.
  destruct (d_en_ok F (definition _ _ _ m')); [|discriminate H]; cbn [bind] in H; destruct (d_st_ok F (definition _ _ _ m')); [|discriminate H]; cbn [bind] in H.
  match type of H with match ensure_match ?a ?b with _ => _ end = _ => destruct (ensure_match a b) eqn:E; [discriminate H|]; apply C68_match in E; exact E end.
Qed.
Lemma shared_goes_with F (m m' : mstate F (space_of F) (rules F)) :
  d_en_ok F (definition _ _ _ m) = true -> d_st_ok F (definition _ _ _ m) = true -> d_en_ok F (definition _ _ _ m') = true -> d_st_ok F (definition _ _ _ m') = true ->
  shared_names F (definition _ _ _ m) (definition _ _ _ m') -> goes_with F m m' = Ok tt.
Proof.
  intros E1 E2 E3 E4 H; unfold goes_with, names_of, endog_names, stoch_names; rewrite E1, E2, E3, E4; cbn [bind].
  match goal with |- match ensure_match ?a ?b with _ => _ end = _ => replace (ensure_match a b) with (@None mismatch_of); [reflexivity|symmetry; apply C68_match; exact H] end.
Qed.

Theorem C68_models :
  forall (F : Type) (O : rops F) (P : ops F) (isnum : F -> bool) (nan : F) (minimize : solver -> (list F -> res F) -> list F -> res (list F))
    (grad : (list F -> res F) -> list F -> res (list F)) (inv : nat -> mat F -> res (mat F))
    (space : list (option F) -> steady_repr F -> repr F -> res (space_of F))
    (solver_ : option (rules F * matrix F) -> list (option F) -> steady_repr F -> repr F -> space_of F -> res (rules F))
    (mr m0 m1 md : mstate F (space_of F) (rules F)) (constr : list (vec F) -> res (list (bool * bool)))
    (e : exog_index) (shocks : shock_array F) (init : option (vec F)) (periods : option nat) (max_iter : nat) (restrained : bool)
    (out : list (vec F) * list bool * list (list F)),
  let shares m := shared_names F (definition _ _ _ mr) (definition _ _ _ m) in
  (models_one F O P isnum nan minimize grad inv space solver_ mr m0 constr e shocks init periods max_iter = Ok out -> shares m0) /\
  (models_two F O P isnum nan minimize grad inv space solver_ mr m0 m1 md constr e shocks init periods max_iter restrained = Ok out ->
   shares m0 /\ shares m1 /\ shares md).
Proof.
  intros F O P isnum nan minimize grad inv space solver_ mr m0 m1 md constr e shocks init periods mi rs out shares; split; intros H.
  - unfold models_one in H; apply bind_ok in H as ([] & H & _); apply goes_with_shared, H.
  - unfold models_two in H; apply bind_ok in H as ([] & H1 & H); apply bind_ok in H as ([] & H2 & H); apply bind_ok in H as ([] & H3 & _).
    repeat split; apply goes_with_shared; assumption.
Qed.
Print Assumptions C68_models.

(** The names are all that this check asks for. *)
Theorem C68_only_names :
  forall (F : Type) (m m' : mstate F (space_of F) (rules F)),
  d_en_ok F (definition _ _ _ m) = true -> d_st_ok F (definition _ _ _ m) = true -> d_en_ok F (definition _ _ _ m') = true -> d_st_ok F (definition _ _ _ m') = true ->
  (goes_with F m m' = Ok tt <-> shared_names F (definition _ _ _ m) (definition _ _ _ m')).
Proof. intros F m m' E1 E2 E3 E4; split; [apply goes_with_shared|apply shared_goes_with; assumption]. Qed.
Print Assumptions C68_only_names.

(** Two models, the parameters in another order and z one higher, are solved together; with
    the shocks in another order they are refused. *)
From Verif Require Import SimSpec NdInst PropFirst SylvesterExample FirstOrderExample PropSecond LinearExample PiecewiseSimExample PropPiecewiseSim.
From Coq Require Import ZArith QArith Qcanon.
Local Open Scope string_scope.
Local Open Scope list_scope.
Definition n_args (shocks : list string) (params : list (string * pdef Qc)) (w : Qc) : args Qc :=
  Args _ lendog shocks [] (Plain params) (Plain []) [] (FromList false (map GTree (shifted w))) [("z", z1)] [] [].
Definition n_one (a b : args Qc) : res (list (vec Qc) * list bool * list (list Qc)) :=
  do ma <- p_new a; do mb <- p_new b;
  models_one Qc QO q_ops (fun _ => true) z0 p_minimize qgrad p_inv p_space p_solver ma mb
    (condition_values Qc qvalue qvalue_ops qvalue_ops qvalue_truth QN ma (Several qvalue [(below_floor, above_zero)])) (OneShock 0) (Flat Qc [q (-2) 1]) None (Some 4%nat) 20.
Definition n_params := [("rho", DNum (q 1 2)); ("c", DNum z1)].
Example C68_models_nonvacuous :
  (exists out, n_one (n_args ["e"; "f"] n_params z0) (n_args ["e"; "f"] (rev n_params) z1) = Ok out) /\
  n_one (n_args ["e"; "f"] n_params z0) (n_args ["f"; "e"] n_params z1) = Err GenericErr.
Proof.
  split; [|vm_compute; reflexivity].
  assert (E : match n_one (n_args ["e"; "f"] n_params z0) (n_args ["e"; "f"] (rev n_params) z1) with Ok _ => true | Err _ => false end = true) by (vm_compute; reflexivity).
  destruct (n_one (n_args ["e"; "f"] n_params z0) (n_args ["e"; "f"] (rev n_params) z1)) as [out|]; [exists out; reflexivity|discriminate E].
Qed.
