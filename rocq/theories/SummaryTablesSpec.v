(** What the summaries of a model and of its statistics should show. *)
From Verif Require Import Base Nd IndexingSpec SummaryTables.
From Coq Require Import Sorted.
From Coq Require Export Permutation.

(** The features that are asked for: all of them with an empty string, one of them with a
    string, several with a list, in the order of the list.  An iterator asks for those it
    gives. *)
Inductive asks (features : list string) : only_arg -> list string -> Prop :=
| asks_all : asks features (OnlyText "") features
| asks_one s : s <> ""%string -> In s features -> asks features (OnlyText s) [s]
| asks_many l : (forall f, In f l -> In f features) -> asks features (OnlyMany l) l
| asks_iterator l : (forall f, In f l -> In f features) -> asks features (OnlyOnce l) l.

(** A figure for each of the wanted features, in order; [shows f b]: block [b] shows
    feature [f]. *)
Inductive prints {B : Type} (wanted : string -> bool) (shows : string -> B -> Prop) : list string -> list B -> Prop :=
| prints_none : prints wanted shows [] []
| prints_hidden f fs bs : wanted f = false -> prints wanted shows fs bs -> prints wanted shows (f :: fs) bs
| prints_shown f fs b bs : wanted f = true -> shows f b -> prints wanted shows fs bs -> prints wanted shows (f :: fs) (b :: bs).

Section Spec.
  Variable F : Type.
  Variable kind : F -> fkind.

  (** The entry of a table in the row and the column of given names. *)
  Definition entry (t : table F) (row column : string) (x : F) : Prop :=
    exists i j xs, nth_error (t_rows F t) i = Some (row, xs) /\ nth_error (t_columns F t) j = Some column /\ nth_error xs j = Some x.
  (** A table with a row for each name of [names], a column for each name of [columns], and the
      number [h i j] where the [i]-th row and the [j]-th column meet. *)
  Definition grid (title : string) (names columns : list string) (h : nat -> nat -> F) : table F :=
    Table F title columns (map (fun i => (nth i names ""%string, map (h i) (seq 0 (List.length columns)))) (seq 0 (List.length names))).

  (** Numbers that can be printed: none is infinite, and some is neither zero nor not a number. *)
  Definition printable (P : F -> Prop) : Prop :=
    (forall x, P x -> kind x <> KInf) /\ exists x, P x /\ kind x = KFinite.
  Definition grid_printable (r c : nat) (h : nat -> nat -> F) : Prop :=
    printable (fun x => exists i j, i < r /\ j < c /\ x = h i j).

  Variable C : Type.
  Variable re im modulus : C -> F.
  Variable le : F -> F -> Prop.

  (** The numbers of variables of each kind; those that are zero are left out. *)
  Definition counted (v : view F C) (lls : list (list Z)) : list (string * nat) :=
    filter (fun p => negb (snd p =? 0))
      [("variables", List.length (v_endog F C v)); ("stochastic shocks", List.length (v_stoch F C v));
       ("state vars", List.length (members_of lls (backward lls)));
       ("forward-looking vars", List.length (members_of lls (forward lls)));
       ("static vars", List.length (members_of lls (static lls)))]%string.

  (** The parameters to show, each once and with its value: all of them, one, those of an
      iterable. *)
  Inductive wants_params (calib : list (string * F)) : params_arg -> string -> list (string * F) -> Prop :=
  | wants_all : wants_params calib (ParamsText "all") "model calibration:" calib
  | wants_one s x : s <> "all"%string -> lookup s calib = Some x ->
      wants_params calib (ParamsText s) "partial model calibration:" [(s, x)]
  | wants_many l d : NoDup (map fst d) -> (forall p, In p (map fst d) <-> In p l) -> (NoDup l -> map fst d = l) ->
      (forall p x, In (p, x) d -> lookup p calib = Some x) ->
      wants_params calib (ParamsMany l) "partial model calibration:" d.
  Definition calibration_table (title : string) (d : list (string * F)) : table F :=
    Table F title [] (map (fun q => (fst q, [snd q])) d).

  (** Is a feature wanted? *)
  Definition wanted (k : model_keys) (f : string) : bool :=
    match k_params k with ParamsText "" | ParamsMany [] | ParamsOther false => negb (String.eqb f "params") | _ => true end &&
    (k_variables k || negb (String.eqb f "variables")) && (k_eigen k || negb (String.eqb f "eigen")) && (k_stoch k || negb (String.eqb f "stoch")).

  (** Block [b] shows feature [f] of the model. *)
  Inductive model_shows (v : view F C) (lls : list (list Z)) (p : params_arg) : string -> block F -> Prop :=
  | shows_variables : model_shows v lls p "variables" (Counts F (counted v lls))
  | shows_eigen eigs order : v_eigen F C v = Ok eigs -> Permutation order eigs ->
      StronglySorted (fun a b => le (modulus a) (modulus b)) order ->
      model_shows v lls p "eigen" (Shown F (Table F "steady-state eigenvalues:" ["real"; "imag"; "mod"]%string
        (map (fun e => (""%string, [re e; im e; modulus e])) order)))
  | shows_stoch Sg : v_sigma F C v = Ok Sg ->
      model_shows v lls p "stoch" (Shown F (grid "covariance of stoch shocks:" (v_stoch F C v) (v_stoch F C v) Sg))
  | shows_params title d : wants_params (v_calib F C v) p title d ->
      model_shows v lls p "params" (Shown F (calibration_table title d)).

  (** When a feature can be printed. *)
  Inductive model_prints (v : view F C) (p : params_arg) : string -> Prop :=
  | prints_variables : model_prints v p "variables"
  | prints_eigen eigs : v_eigen F C v = Ok eigs ->
      (exists e x, In e eigs /\ In x [re e; im e; modulus e] /\ kind x = KFinite) -> model_prints v p "eigen"
  | prints_stoch Sg : v_sigma F C v = Ok Sg ->
      grid_printable (List.length (v_stoch F C v)) (List.length (v_stoch F C v)) Sg -> model_prints v p "stoch"
  | prints_params title d : wants_params (v_calib F C v) p title d -> printable (fun x => In x (map snd d)) ->
      model_prints v p "params".

  (** ** Statistics *)
  Variable mul : F -> F -> F.
  Variable lag_name : nat -> string.

  (** The arrays the statistics give: of [n] variables and [k] shocks. *)
  Record shaped (s : stats F) (mean std : nat -> F) (corr : nat -> nat -> F) (auto : nat -> nat -> nat -> F) (shares : nat -> nat -> F) : Prop := Shaped {
    sh_mean : s_mean F s = Ok (V1 (List.length (s_endog F s)) mean);
    sh_std : s_std F s = Ok (V1 (List.length (s_endog F s)) std);
    sh_corr : s_corr F s = Ok (M2 (List.length (s_endog F s)) (List.length (s_endog F s)) corr);
    sh_auto : forall p, (0 <= p)%Z -> s_autocorr F s p = Ok (map (fun i => M2 (List.length (s_endog F s)) (List.length (s_endog F s)) (auto i)) (seq 0 (Z.to_nat p)));
    sh_auto_neg : forall p, (p < 0)%Z -> s_autocorr F s p = Err ValueErr;
    sh_decomp : s_decomp F s = Ok (M2 (List.length (s_endog F s)) (List.length (s_stoch F s)) shares) }.

  Definition moment (mean std : nat -> F) (i j : nat) : F :=
    match j with 0 => mean i | 1 => std i | _ => mul (std i) (std i) end.
  Definition wanted_stats (k : stats_keys) (f : string) : bool :=
    (k_moments k || negb (String.eqb f "moments")) && (k_corr k || negb (String.eqb f "corr")) &&
    (negb (k_autocorr k =? 0)%Z || negb (String.eqb f "autocorr")) && (k_decomp k || negb (String.eqb f "decomp")).

  (** Block [b] shows feature [f] of the statistics; entry [i] of the autocorrelations is in
      the column of the lag [i]. *)
  Inductive stats_shows (endog stoch : list string) (p : Z) (mean std : nat -> F) (corr : nat -> nat -> F) (auto : nat -> nat -> nat -> F) (shares : nat -> nat -> F) :
      string -> block F -> Prop :=
  | shows_moments : stats_shows endog stoch p mean std corr auto shares "moments"
      (Shown F (grid "model moments:" endog ["mean"; "std dev"; "var"]%string (moment mean std)))
  | shows_corr : stats_shows endog stoch p mean std corr auto shares "corr" (Shown F (grid "correlation:" endog endog corr))
  | shows_autocorr : (0 < p)%Z -> stats_shows endog stoch p mean std corr auto shares "autocorr"
      (Shown F (grid "autocovariance of endogenous variables:" endog (map lag_name (seq 0 (Z.to_nat p))) (fun v i => auto i v v)))
  | shows_decomp : stats_shows endog stoch p mean std corr auto shares "decomp" (Shown F (grid "variance decomposition:" endog stoch shares)).
  Inductive stats_prints (endog stoch : list string) (p : Z) (mean std : nat -> F) (corr : nat -> nat -> F) (auto : nat -> nat -> nat -> F) (shares : nat -> nat -> F) :
      string -> Prop :=
  | prints_moments : grid_printable (List.length endog) 3 (moment mean std) -> stats_prints endog stoch p mean std corr auto shares "moments"
  | prints_corr : grid_printable (List.length endog) (List.length endog) corr -> stats_prints endog stoch p mean std corr auto shares "corr"
  | prints_autocorr : (0 < p)%Z -> grid_printable (List.length endog) (Z.to_nat p) (fun v i => auto i v v) ->
      stats_prints endog stoch p mean std corr auto shares "autocorr"
  | prints_decomp : grid_printable (List.length endog) (List.length stoch) shares -> stats_prints endog stoch p mean std corr auto shares "decomp".
End Spec.
