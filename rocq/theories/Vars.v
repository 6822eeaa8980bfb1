(** Variables and the shock covariance matrix: model of pynare/core/variables.py:130-401
    and pynare/core/generic.py:395-424. *)
From Verif Require Import Base Syntax Lexer Parser Eval Semantics Factory Indexing.

(** ** Variables *)

(** variables.py:154-179 [EndogVar]; the set of periods is None until it is set. *)
Record evar (V : Type) := Evar {
  ev_name : string; ev_init : option V; ev_term : option V; ev_hist : option V;
  ev_ll : option (list Z)
}.
(** variables.py:198-213 [StochVar]. *)
Record svar (V : Type) := Svar {
  sv_name : string; sv_other : string;
  sv_variance : option V; sv_corr : option V; sv_cov : option V
}.
(** variables.py:229-240 [DetermVar].  Scalars (the defaults 0 and 1 of line 385) are
    lists with one element. *)
Record dvar (V : Type) := Dvar { dv_name : string; dv_periods : option (list Z); dv_values : option (list V) }.
Arguments Evar {V}. Arguments ev_name {V}. Arguments ev_init {V}. Arguments ev_term {V}.
Arguments ev_hist {V}. Arguments ev_ll {V}.
Arguments Svar {V}. Arguments sv_name {V}. Arguments sv_other {V}. Arguments sv_variance {V}.
Arguments sv_corr {V}. Arguments sv_cov {V}.
Arguments Dvar {V}. Arguments dv_name {V}. Arguments dv_periods {V}. Arguments dv_values {V}.

(** What a dictionary of shocks holds for a name: keyword arguments of a StochVar or
    of a DetermVar (variables.py:324-330, 371-375). *)
Inductive shockdef (V : Type) :=
| DStoch (other : option string) (variance corr cov : option V)
| DDet (periods : option (list Z)) (values : option (list V)).
Arguments DStoch {V}. Arguments DDet {V}.

Section Vars.
  Variable V : Type.
  Variable zero one : V.
  Variable truthy : V -> bool.

  (** variables.py:164-176: without terminal and historical values the initial value
      defaults to 0. *)
  Definition new_evar (x : string) (init term hist : option V) (ll : option (list Z)) : evar V :=
    Evar x
      (match term, hist with
       | None, None => match init with Some v => if truthy v then Some v else Some zero | None => Some zero end
       | _, _ => init
       end) term hist ll.

  (** variables.py:248-309 [_create_endog_vars] with dictionaries. *)
  Definition create_endog (names : list string) (init term hist : list (string * V))
      (ll : list (string * list Z)) : list (evar V) :=
    map (fun x => new_evar x (lookup x init) (lookup x term) (lookup x hist) (lookup x ll)) names.

  (** variables.py:336-356 [_create_stoch_vars]: unknown keyword arguments are a
      TypeError; a shock that is not in the dictionary has variance 1. *)
  Definition new_svar (x : string) (d : shockdef V) : res (svar V) :=
    match d with
    | DStoch o v r c => Ok (Svar x (match o with Some y => y | None => ""%string end) v r c)
    | DDet None None => Ok (Svar x ""%string None None None)
    | DDet _ _ => Err TypeErr
    end.
  Definition create_stoch (names : list string) (shocks : list (string * shockdef V)) : res (list (svar V)) :=
    mapM (fun x => new_svar x (match lookup x shocks with Some d => d | None => DStoch None (Some one) None None end)) names.

  (** variables.py:381-401 [_create_determ_vars] *)
  Definition new_dvar (x : string) (d : shockdef V) : res (dvar V) :=
    match d with
    | DDet p v => Ok (Dvar x p v)
    | DStoch None None None None => Ok (Dvar x None None)
    | DStoch _ _ _ _ => Err TypeErr
    end.
  Definition create_determ (names : list string) (shocks : list (string * shockdef V)) : res (list (dvar V)) :=
    mapM (fun x => new_dvar x (match lookup x shocks with Some d => d | None => DDet (Some [0%Z]) (Some [one]) end)) names.

  (** ** Covariance matrix *)

  Variable O : ops V.
  (** [isinstance(v, (int, float))] *)
  Variable isnum : V -> bool.

  Definition matrix := nat -> nat -> V.
  Definition put (i j : nat) (v : V) (m : matrix) : matrix :=
    fun a b => if (a =? i) && (b =? j) then v else m a b.

  (** [np.where(names == other)[0]] *)
  Fixpoint positions (x : string) (names : list string) (k : nat) : list nat :=
    match names with
    | [] => []
    | y :: names' => if String.eqb y x then k :: positions x names' (S k) else positions x names' (S k)
    end.

  Definition number (o : option V) : option V :=
    match o with Some v => if isnum v then Some v else None | None => None end.

  (** generic.py:416, 422: [sig[i, j], sig[j, i] = cov, cov] with an array [j]. *)
  Definition put_both (i : nat) (jv : list (nat * V)) (m : matrix) : matrix :=
    let m1 := fold_left (fun m p => put i (fst p) (snd p) m) jv m in
    fold_left (fun m p => put (fst p) i (snd p) m) jv m1.

  (** generic.py:412-414.  A variance that is None is multiplied as such. *)
  Definition corr_to_cov (m : matrix) (v : option V) (r : V) (j : nat) : res (nat * V) :=
    do p <- o_bin O BMul (match v with Some v => v | None => o_none O end) (m j j);
    do s <- o_fun O "sqrt" p;
    do c <- o_bin O BMul s r;
    Ok (j, c).

  (** generic.py:411-422, one shock. *)
  Definition sigma_shock (names : list string) (m : matrix) (ik : nat * svar V) : res matrix :=
    let (i, k) := ik in
    let js := positions (sv_other k) names 0 in
    do m1 <- match number (sv_corr k) with
             | Some r => do jv <- mapM (corr_to_cov m (sv_variance k) r) js; Ok (put_both i jv m)
             | None => Ok m
             end;
    Ok (match number (sv_cov k) with
        | Some c => put_both i (map (fun j => (j, c)) js) m1
        | None => m1
        end).

  Definition enumerate {A} (l : list A) : list (nat * A) := combine (seq 0 (List.length l)) l.

  (** generic.py:395-424 [_define_sigma] *)
  Definition define_sigma (stoch : list (svar V)) : res matrix :=
    let m0 := fold_left (fun m (ik : nat * svar V) =>
                match number (sv_variance (snd ik)) with
                | Some v => put (fst ik) (fst ik) v m
                | None => m
                end) (enumerate stoch) (fun _ _ => zero) in
    foldM (sigma_shock (map sv_name stoch)) m0 (enumerate stoch).
End Vars.

(** model.py:129 [shocks = outline._shocks]: the shocks a model read from a file has. *)
Definition outline_shocks {V} (o : outline V) : list (string * shockdef V) :=
  map (fun p => (fst p, DStoch (other V (snd p)) (variance V (snd p)) (corr V (snd p)) (cov V (snd p)))) (o_shocks V o).
