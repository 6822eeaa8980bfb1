(** What a list of shocks states about its covariance matrix. *)
From Verif Require Import Base Syntax Lexer Parser Eval Semantics Factory Indexing Vars.

Section Spec.
  Variable V : Type.
  Variable O : ops V.
  Variable isnum : V -> bool.

  (** The shock at position [i] names the shock at position [j] as its other shock and
      gives a covariance or a correlation (numbers) for the pair. *)
  Definition states (stoch : list (svar V)) (i j : nat) : Prop :=
    exists k k', nth_error stoch i = Some k /\ nth_error stoch j = Some k' /\
      sv_other k = sv_name k' /\
      ((exists c, sv_cov k = Some c /\ isnum c = true) \/ (exists r, sv_corr k = Some r /\ isnum r = true)).

  (** The covariance the shock at [i] states for its pair with [j]: the covariance if
      one is given, else the correlation times the square root of the product of the
      two variances. *)
  Inductive stated (stoch : list (svar V)) (i j : nat) : V -> Prop :=
  | stated_cov k k' c :
      nth_error stoch i = Some k -> nth_error stoch j = Some k' -> sv_other k = sv_name k' ->
      sv_cov k = Some c -> isnum c = true -> stated stoch i j c
  | stated_corr k k' r vi vj p s c :
      nth_error stoch i = Some k -> nth_error stoch j = Some k' -> sv_other k = sv_name k' ->
      (forall c, sv_cov k = Some c -> isnum c = false) ->
      sv_corr k = Some r -> isnum r = true ->
      sv_variance k = Some vi -> sv_variance k' = Some vj ->
      o_bin O BMul vi vj = Ok p -> o_fun O "sqrt" p = Ok s -> o_bin O BMul s r = Ok c ->
      stated stoch i j c.
End Spec.
