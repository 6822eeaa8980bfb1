(** Printed summaries of a model and of its statistics: model of pynare/io/summary.py:16-365,
    pynare/core/model.py:268-286, pynare/stats/stats.py:24-78 and
    pynare/core/variables.py:820-837.

    Simplifications: a printed table is its title, the labels of its columns and its rows,
    each with its label and its numbers, without rounding and padding; the keyword [sig] is
    not negative.  What a model and its statistics give when they are asked for their parts
    is given, exceptions included. *)
From Verif Require Import Base Nd Indexing.
From Verif Require Summary.
From Coq Require Import DecimalString DecimalNat.

(** How a float is printed and what its logarithm is: zero, finite, infinite, not a number. *)
Inductive fkind := KZero | KFinite | KInf | KNan.

(** What can be asked for with [only]: a string, an iterable that can be read again, an
    iterator that can be read once, something that is not iterable. *)
Inductive only_arg := OnlyText (s : string) | OnlyMany (l : list string) | OnlyOnce (l : list string) | OnlyOther.

(** [x in features] *)
Definition is_feature (features : list string) (x : string) : bool := existsb (String.eqb x) features.

(** summary.py:20-51.  An iterator is read to its end by the check of its elements. *)
Definition chosen (features : list string) (o : only_arg) : res (list string) :=
  match o with
  | OnlyMany l => if forallb (is_feature features) l then Ok l else Err ValueErr
  | OnlyOnce l => if forallb (is_feature features) l then Ok [] else Err ValueErr
  | OnlyOther => Err TypeErr
  | OnlyText EmptyString => Ok features
  | OnlyText s => if is_feature features s then Ok [s] else Err ValueErr
  end.

(** The keyword [params]: a string, an iterable, something else and whether it is true. *)
Inductive params_arg := ParamsText (s : string) | ParamsMany (l : list string) | ParamsOther (truthy : bool).
Definition params_true (p : params_arg) : bool :=
  match p with
  | ParamsText s => negb (String.eqb s EmptyString)
  | ParamsMany l => match l with [] => false | _ => true end
  | ParamsOther b => b
  end.
(** The characters of a string, as strings. *)
Fixpoint letters (s : string) : list string :=
  match s with EmptyString => [] | String a s' => String a EmptyString :: letters s' end.

Section Tables.
  Variable F : Type.
  Variable kind : F -> fkind.

  Record table := Table { t_title : string; t_columns : list string; t_rows : list (string * list F) }.
  Inductive block := Counts (l : list (string * nat)) | Shown (t : table).

  Definition is_kind (k : fkind) (x : F) : bool :=
    match k, kind x with KZero, KZero | KFinite, KFinite | KInf, KInf | KNan, KNan => true | _, _ => false end.

  (** [int(np.fix(np.nanmax(np.log10(np.absolute(l)))) + 3)], and with [floor]: the largest of
      no numbers is a ValueError; of numbers that are not numbers it is not a number, and
      [int] of that a ValueError; [int] of an infinity is an OverflowError. *)
  Definition digits (l : list F) : res unit :=
    match l with
    | [] => Err ValueErr
    | _ => if forallb (is_kind KNan) l then Err ValueErr
           else if existsb (is_kind KInf) l then Err OverflowErr
           else if existsb (is_kind KFinite) l then Ok tt else Err OverflowErr
    end.
  (** [max(map(len, names))]: a ValueError for no names *)
  Definition longest (names : list string) : res unit := match names with [] => Err ValueErr | _ => Ok tt end.

  (** summary.py:642-679 without a threshold.  A mask of as many columns as [arr] has selects
      all columns; as labels it must be as long as they are. *)
  Definition summarize (arr : nd F) (labels : list string) : res (list string * list (list F)) :=
    match arr with
    | M2 r c f =>
        let rows := map (fun i => map (f i) (seq 0 c)) (seq 0 r) in
        if List.length labels =? c then do _ <- digits (concat rows); Ok (labels, rows) else Err IndexErr
    | _ => Err IndexErr
    end.
  (** summary.py:267-273, 293-298, 319-326, 347-354: the lines are zipped with an empty label and the names. *)
  Definition label_rows (title : string) (names : list string) (a : list string * list (list F)) : table :=
    Table title (fst a) (combine names (snd a)).

  (** ** The summary of a model *)

  Variable C : Type.
  Variable re im modulus : C -> F.
  (** [np.argsort] *)
  Variable argsort : list F -> list nat.

  Record view := View { v_endog : list string; v_stoch : list string; v_indexes : indexes;
    v_eigen : res (list C); v_sigma : res (nat -> nat -> F); v_calib : list (string * F) }.

  (** summary.py:89-115 *)
  Definition variables_str (v : view) : res block :=
    let x := v_indexes v in
    Ok (Counts (filter (fun p => 0 <? snd p)
      [("variables", List.length (v_endog v)); ("stochastic shocks", List.length (v_stoch v));
       ("state vars", List.length (members is_state x)); ("forward-looking vars", List.length (members is_forward x));
       ("static vars", List.length (members is_static x))]%string)).

  (** summary.py:117-151.  [np.max] of no numbers is a ValueError (134). *)
  Definition eigen_str (v : view) : res block :=
    do unsorted <- v_eigen v;
    do eigs <- Summary.take unsorted (argsort (map modulus unsorted));
    if existsb (is_kind KFinite) (map re eigs ++ map im eigs ++ map modulus eigs)
    then Ok (Shown (Table "steady-state eigenvalues:" ["real"; "imag"; "mod"]%string
           (map (fun e => (""%string, [re e; im e; modulus e])) eigs)))
    else Err ValueErr.

  (** summary.py:153-179 *)
  Definition stoch_str (v : view) : res block :=
    let names := v_stoch v in
    let k := List.length names in
    do _ <- longest names;
    do sigma <- v_sigma v;
    let rows := map (fun i => map (sigma i) (seq 0 k)) (seq 0 k) in
    do _ <- digits (concat rows);
    Ok (Shown (Table "covariance of stoch shocks:" names (combine names rows))).

  (** variables.py:797-801 *)
  Definition value_of (calib : list (string * F)) (p : string) : res F :=
    match lookup p calib with Some x => Ok x | None => Err KeyErr end.
  (** summary.py:188: a comprehension over the names, whose later entries replace earlier
      ones of the same name *)
  Definition selection (calib : list (string * F)) (l : list string) : res (list (string * F)) :=
    do vs <- mapM (fun p => do x <- value_of calib p; Ok (p, x)) l;
    Ok (fold_left (fun d q => Base.update (fst q) (snd q) d) vs []).
  (** summary.py:191-205 and variables.py:820-837 *)
  Definition print_calibration (title : string) (display : list (string * F)) : res table :=
    do _ <- longest (map fst display);
    do _ <- digits (map snd display);
    Ok (Table title [] (map (fun q => (fst q, [snd q])) display)).
  (** summary.py:181-205 *)
  Definition params_str (p : params_arg) (v : view) : res block :=
    do display <- match p with
                  | ParamsText s => if String.eqb s "all" then Ok ("model calibration:"%string, v_calib v)
                                    else do d <- selection (v_calib v) (letters s); Ok ("partial model calibration:"%string, d)
                  | ParamsMany l => do d <- selection (v_calib v) l; Ok ("partial model calibration:"%string, d)
                  | ParamsOther _ => Err TypeErr
                  end;
    do t <- print_calibration (fst display) (snd display);
    Ok (Shown t).
  (** variables.py:820-837: [str] of the parameters of a model *)
  Definition calibration_str (v : view) : res table := print_calibration "ModelCalibration" (v_calib v).

  (** summary.py:64-69 *)
  Definition model_features : list string := ["variables"; "eigen"; "stoch"; "params"]%string.
  (** model.py:268-286, summary.py:71-87: the keywords of [Model.summary] *)
  Record model_keys := ModelKeys { k_variables : bool; k_eigen : bool; k_stoch : bool; k_params : params_arg; k_only : only_arg }.

  (** summary.py:211-214, 361-364: one feature *)
  Definition show (b : bool) (r : res block) : res (list block) := if b then do x <- r; Ok [x] else Ok [].
  (** summary.py:207-215: the blocks of the features that are asked for and whose keyword is
      true, in the order of [only]. *)
  Definition model_block (k : model_keys) (v : view) (f : string) : res (list block) :=
    if String.eqb f "variables" then show (k_variables k) (variables_str v)
    else if String.eqb f "eigen" then show (k_eigen k) (eigen_str v)
    else if String.eqb f "stoch" then show (k_stoch k) (stoch_str v)
    else if String.eqb f "params" then show (params_true (k_params k)) (params_str (k_params k) v)
    else Err AttrErr.
  Definition model_summary (k : model_keys) (v : view) : res (list block) :=
    do only <- chosen model_features (k_only k);
    do bs <- mapM (model_block k v) only;
    Ok (concat bs).

  (** ** The summary of the statistics of a model *)

  Variable mul : F -> F -> F.
  (** What the methods of the statistics return (stats.py:42-53). *)
  Record stats := Stats { s_endog : list string; s_stoch : list string; s_mean : res (nd F); s_std : res (nd F);
    s_corr : res (nd F); s_autocorr : Z -> res (list (nd F)); s_decomp : res (nd F) }.

  (** [np.vstack]: arrays of fewer dimensions are rows *)
  Definition as_rows (a : nd F) : nat * nat * (nat -> nat -> F) :=
    match a with S0 x => (1, 1, fun _ _ => x) | V1 n f => (1, n, fun _ => f) | M2 r c f => (r, c, f) end.
  Definition stack2 (a b : nat * nat * (nat -> nat -> F)) : res (nat * nat * (nat -> nat -> F)) :=
    let '(r, c, f) := a in
    let '(r', c', f') := b in
    if c =? c' then Ok (r + r', c, fun i j => if i <? r then f i j else f' (i - r) j) else Err ValueErr.
  Definition nmap1 (h : F -> F) (a : nd F) : nd F :=
    match a with S0 x => S0 (h x) | V1 n f => V1 n (fun i => h (f i)) | M2 r c f => M2 r c (fun i j => h (f i j)) end.

  (** summary.py:246-275 *)
  Definition moments_str (s : stats) : res block :=
    do mean <- s_mean s;
    do std_dev <- s_std s;
    let var := nmap1 (fun x => mul x x) std_dev in
    do ms <- stack2 (as_rows mean) (as_rows std_dev);
    do (r, c, f) <- stack2 ms (as_rows var);
    do a <- summarize (M2 c r (fun i j => f j i)) ["mean"; "std dev"; "var"]%string;
    Ok (Shown (label_rows "model moments:" (s_endog s) a)).

  (** summary.py:277-300 *)
  Definition corr_str (s : stats) : res block :=
    do corr <- s_corr s;
    do a <- summarize corr (s_endog s);
    do _ <- longest (s_endog s);
    Ok (Shown (label_rows "correlation:" (s_endog s) a)).

  (** [f"p = {i}"] *)
  Definition lag_label (i : nat) : string := ("p = " ++ NilZero.string_of_uint (Nat.to_uint i))%string.

  (** [np.diagonal] of a matrix: its length and its entries; a ValueError for less than two
      dimensions *)
  Definition diagonal (a : nd F) : res (nat * (nat -> F)) :=
    match a with M2 r c f => Ok (Nat.min r c, fun i => f i i) | _ => Err ValueErr end.
  (** [np.transpose(np.array(l))] of vectors: vectors of different lengths are a ValueError; of
      no vectors it has one dimension, and asking for the second (summary.py:646) is an
      IndexError *)
  Definition side_by_side (l : list (nat * (nat -> F))) : res (nd F) :=
    match l with
    | [] => Err IndexErr
    | (n, h) :: _ => if forallb (fun p => fst p =? n) l
                     then Ok (M2 n (List.length l) (fun i j => snd (nth j l (n, h)) i)) else Err ValueErr
    end.

  (** summary.py:302-328 *)
  Definition autocorr_str (p : Z) (s : stats) : res block :=
    do acr_3d <- s_autocorr s p;
    do diagonals <- mapM diagonal acr_3d;
    do arr <- side_by_side diagonals;
    do a <- summarize arr (map lag_label (seq 0 (Z.to_nat p)));
    Ok (Shown (label_rows "autocovariance of endogenous variables:" (s_endog s) a)).

  (** summary.py:330-356 *)
  Definition decomp_str (s : stats) : res block :=
    do decomp <- s_decomp s;
    do a <- summarize decomp (s_stoch s);
    Ok (Shown (label_rows "variance decomposition:" (s_endog s) a)).

  (** summary.py:221-226 *)
  Definition stats_features : list string := ["moments"; "corr"; "autocorr"; "decomp"]%string.
  (** stats.py:56-78, summary.py:228-244: the keywords of [ModelStatistics.summary]; the
      number of autocorrelations is true unless it is zero. *)
  Record stats_keys := StatsKeys { k_moments : bool; k_corr : bool; k_autocorr : Z; k_decomp : bool; k_only_stats : only_arg }.

  (** summary.py:358-365 *)
  Definition stats_block (k : stats_keys) (s : stats) (f : string) : res (list block) :=
    if String.eqb f "moments" then show (k_moments k) (moments_str s)
    else if String.eqb f "corr" then show (k_corr k) (corr_str s)
    else if String.eqb f "autocorr" then show (negb (k_autocorr k =? 0)%Z) (autocorr_str (k_autocorr k) s)
    else if String.eqb f "decomp" then show (k_decomp k) (decomp_str s)
    else Err AttrErr.
  Definition stats_summary (k : stats_keys) (s : stats) : res (list block) :=
    do only <- chosen stats_features (k_only_stats k);
    do bs <- mapM (stats_block k s) only;
    Ok (concat bs).
End Tables.
