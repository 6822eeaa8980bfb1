(** Lead-lag structure and Jacobian columns: model of pynare/core/variables.py:404-776. *)
From Verif Require Import Base Syntax Lexer Parser Eval Semantics Factory.

Section LeadLags.
  Variable V : Type.
  Variable endog : list string.

  (** variables.py:504-521: a period of a variable, if the variable is endogenous. *)
  Definition note_period (x : string) (k : Z) (d : list (string * list Z)) : list (string * list Z) :=
    if mem x endog
    then update x (set_add k (match lookup x d with Some ps => ps | None => [] end)) d
    else d.

  (** variables.py:475-521 [LeadLagCounter]; comparisons have no visitor (base.py:150). *)
  Fixpoint count_periods (e : ast V) (d : list (string * list Z)) : res (list (string * list Z)) :=
    match e with
    | Num _ => Ok d
    | Var x => Ok (note_period x 0%Z d)
    | PVar x k => Ok (note_period x k d)
    | Un _ e => count_periods e d
    | Bin _ l r => do d' <- count_periods l d; count_periods r d'
    | Fun _ e => count_periods e d
    | Comp _ _ _ => Err GenericErr
    end.

  (** Set union. *)
  Definition set_union (a b : list Z) : list Z := fold_left (fun s k => set_add k s) b a.

  (** variables.py:464-469: the periods of one expression are added to the record.  The
      names counted are endogenous, so they are in the record. *)
  Definition merge_counts (d counts : list (string * list Z)) : list (string * list Z) :=
    fold_left (fun d c => match lookup (fst c) d with
                          | Some ps => update (fst c) (set_union ps (snd c)) d
                          | None => d
                          end) counts d.

  (** variables.py:434-471.  [dict.fromkeys] shares one empty set, but [union] makes a
      new set, so the sharing has no effect. *)
  Definition read_lead_lags (exprs : list (ast V)) : res (list (string * list Z)) :=
    foldM (fun d e => do c <- count_periods e []; Ok (merge_counts d c))
      (fold_left (fun d x => update x [] d) endog []) exprs.
End LeadLags.

(** variables.py:404-431 [set_lead_lags]: the sets of periods in declaration order. *)
Definition set_lead_lags (V : Type) (endog : list string) (exprs : list (ast V)) : res (list (string * list Z)) :=
  do d <- read_lead_lags V endog exprs;
  mapM (fun x => match lookup x d with Some ps => Ok (x, ps) | None => Err KeyErr end) endog.

(** ** The incidence array *)

(** variables.py:542-552, one variable: the rows of its column that are set.  Indexing
    with an empty (float) array is an IndexError, as is an index outside -3..2; negative
    indices count from the end.  In the handler [not lead_lag] is true of the empty
    array, false for one (nonzero) element, and a ValueError for more. *)
Definition mark (ll : list Z) : res (list Z) :=
  match ll with
  | [] => Err EndogIndexErr
  | [k] => if ((-3 <=? k + 1) && (k + 1 <=? 2))%Z then Ok [((k + 1) mod 3)%Z] else Ok []
  | _ => if forallb (fun k => (-3 <=? k + 1) && (k + 1 <=? 2))%Z ll
         then Ok (map (fun k => (k + 1) mod 3)%Z ll) else Err ValueErr
  end.

(** variables.py:556-558: numbering the entries that are set, row by row. *)
Fixpoint fill (row : list bool) (k : nat) : list (option nat) :=
  match row with
  | [] => []
  | true :: row' => Some k :: fill row' (S k)
  | false :: row' => None :: fill row' k
  end.
Definition count_true (row : list bool) : nat := List.length (filter (fun b => b) row).

(** The array [llx] (rows t-1, t, t+1; None is nan), the number of entries and the
    number of stochastic shocks. *)
Record indexes := Indexes {
  row_m : list (option nat); row_0 : list (option nat); row_p : list (option nat);
  n_endog_inc : nat; n_exog : nat
}.

(** variables.py:531-567 [VariableIndexManager].  [lls] are the sets of periods by name,
    in declaration order; the dictionary (line 545) keeps one entry for equal names,
    and the array has one column per declared variable. *)
Definition index_manager (lls : list (string * list Z)) (n_stoch : nat) : res indexes :=
  let d := fold_left (fun d p => update (fst p) (snd p) d) lls [] in
  do cols <- mapM (fun p => mark (snd p)) d;
  let all := cols ++ repeat [] (List.length lls - List.length cols) in
  let row r := map (existsb (Z.eqb r)) all in
  let n0 := count_true (row 0%Z) in
  let n1 := count_true (row 1%Z) in
  let n2 := count_true (row 2%Z) in
  Ok (Indexes (fill (row 0%Z) 0) (fill (row 1%Z) n0) (fill (row 2%Z) (n0 + n1)) (n0 + n1 + n2) n_stoch).

(** ** Classes of variables *)

Definition isnan (o : option nat) : bool := match o with None => true | Some _ => false end.

(** [np.where(mask)[0]] *)
Fixpoint where_ (mask : list bool) (i : nat) : list nat :=
  match mask with
  | [] => []
  | true :: m => i :: where_ m (S i)
  | false :: m => where_ m (S i)
  end.
(** Masks by the three entries of a column. *)
Fixpoint mask3 (p : option nat -> option nat -> option nat -> bool) (a b c : list (option nat)) : list bool :=
  match a, b, c with
  | x :: a', y :: b', z :: c' => p x y z :: mask3 p a' b' c'
  | _, _, _ => []
  end.
Definition mask (p : option nat -> option nat -> option nat -> bool) (x : indexes) : list bool :=
  mask3 p (row_m x) (row_0 x) (row_p x).

(** variables.py:644-722 [VariableTyper]. *)
Definition is_state (a b c : option nat) : bool := negb (isnan a).
Definition is_cont (a b c : option nat) : bool := negb (isnan b).
Definition is_static (a b c : option nat) : bool := isnan a && isnan c.
Definition is_dynamic (a b c : option nat) : bool := negb (isnan a && isnan c).
Definition is_forward (a b c : option nat) : bool := negb (isnan c).
Definition is_pure_forward (a b c : option nat) : bool := isnan a && negb (isnan c).
Definition is_backward (a b c : option nat) : bool := negb (isnan a).
Definition is_pure_backward (a b c : option nat) : bool := negb (isnan a) && isnan c.
Definition is_mixed (a b c : option nat) : bool := negb (isnan a) && negb (isnan c).
Definition members (p : option nat -> option nat -> option nat -> bool) (x : indexes) : list nat :=
  where_ (mask p x) 0.

(** variables.py:729-776 [TimedLLX]: the columns of the selected variables at a period
    (row 0, 1 or 2); ValueError for other keys. *)
Definition row_of (x : indexes) (k : Z) : res (list (option nat)) :=
  if (k =? -1)%Z then Ok (row_m x) else if (k =? 0)%Z then Ok (row_0 x)
  else if (k =? 1)%Z then Ok (row_p x) else Err ValueErr.
Fixpoint select {A} (m : list bool) (l : list A) : list A :=
  match m, l with
  | b :: m', a :: l' => if b then a :: select m' l' else select m' l'
  | _, _ => []
  end.
Fixpoint not_nan (l : list (option nat)) : list nat :=
  match l with
  | [] => []
  | Some n :: l' => n :: not_nan l'
  | None :: l' => not_nan l'
  end.
Definition timed (p : option nat -> option nat -> option nat -> bool) (x : indexes) (k : Z) : res (list nat) :=
  do r <- row_of x k; Ok (not_nan (select (mask p x) r)).

(** variables.py:573-585 *)
Definition not_forward_back (a b c : option nat) : bool := negb (isnan a) && (isnan b || isnan c).
Definition dr_order (x : indexes) : list nat :=
  members is_static x ++ members not_forward_back x ++ members is_mixed x ++ members is_pure_forward x.

(** [np.argsort]: positions sorted by value.  Equal values (possible only when
    [dr_order] has repetitions) keep their order here; numpy does not say. *)
Fixpoint insert_by (a : nat * nat) (l : list (nat * nat)) : list (nat * nat) :=
  match l with
  | [] => [a]
  | b :: l' => if fst a <=? fst b then a :: l else b :: insert_by a l'
  end.
Definition argsort (l : list nat) : list nat :=
  map snd (fold_right insert_by [] (combine l (seq 0 (List.length l)))).

(** variables.py:587-589 *)
Definition dc_order (x : indexes) : list nat := argsort (dr_order x).

(** variables.py:566: the array with its columns in decision-rule order. *)
Definition permuted {A} (dflt : A) (order : list nat) (l : list A) : list A := map (fun i => nth i l dflt) order.
Definition dr (x : indexes) : indexes :=
  Indexes (permuted None (dr_order x) (row_m x)) (permuted None (dr_order x) (row_0 x))
    (permuted None (dr_order x) (row_p x)) (n_endog_inc x) (n_exog x).

(** variables.py:591-618.  [np.count_nonzero] of column indices: nan is not zero, the
    column index 0 is. *)
Definition n_static (x : indexes) : nat :=
  List.length (filter (fun o => match o with Some 0 => false | _ => true end) (select (mask is_static x) (row_0 x))).
Definition count (p : option nat -> option nat -> option nat -> bool) (x : indexes) : nat := count_true (mask p x).
Definition n_forward (x : indexes) : nat := count is_forward x.
Definition n_backward (x : indexes) : nat := count is_backward x.
Definition n_mixed (x : indexes) : nat := count is_mixed x.
Definition n_endog (x : indexes) : nat := List.length (row_m x).
Definition n_dynamic (x : indexes) : Z := (Z.of_nat (n_endog x) - Z.of_nat (n_static x))%Z.
Definition n_state (x : indexes) : nat := count is_state x.

(** variables.py:620-623 *)
Definition exogenous_jacobian (x : indexes) : list nat := seq (n_endog_inc x) (n_exog x).

(** expressions.py:346-352: the names of the arguments of the dynamic functions. *)
Definition suffixed (s : string) (row : list (option nat)) (endo : list string) : list string :=
  select (map (fun o => negb (isnan o)) row) (map (fun x => (x ++ s)%string) endo).
Definition dyn_vars (x : indexes) (endo exo : list string) : list string :=
  suffixed "m1" (row_m x) endo ++ suffixed "" (row_0 x) endo ++ suffixed "p1" (row_p x) endo ++ exo.

(** linearizing.py:52-63: the stacked steady state with zero shocks. *)
Definition stacked {A} (x : indexes) (ss : list A) (zero : A) (n_stoch : nat) : list A :=
  select (map (fun o => negb (isnan o)) (row_m x)) ss ++ select (map (fun o => negb (isnan o)) (row_0 x)) ss ++
  select (map (fun o => negb (isnan o)) (row_p x)) ss ++ repeat zero n_stoch.
