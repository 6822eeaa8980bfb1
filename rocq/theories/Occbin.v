(** Occasionally binding constraints: model of pynare/core/solve/binding.py:227-943. *)
From Verif Require Import Base Nd Mat Indexing.

(** ** Regimes *)

(** binding.py:875-881: the entries of the vector without its first and last ones; a
    regime begins where an entry differs from the latest regime. *)
Fixpoint changes (i : nat) (latest : bool) (l : list bool) : list (nat * bool) :=
  match l with
  | [] => []
  | b :: l' => if Bool.eqb b latest then changes (S i) latest l' else (i, b) :: changes (S i) b l'
  end.
(** binding.py:884-894 *)
Inductive warning := NeverLeaves | EndsAlternative.
Definition regime_warning (spells : list (nat * bool)) : option warning :=
  match spells with
  | [(_, true)] => Some NeverLeaves
  | _ => if snd (last spells (0, false)) then Some EndsAlternative else None
  end.
(** binding.py:855-896 [_locate_regime_changes]: first period and regime of each spell; the
    first regime of an empty vector is read at line 884. *)
Definition locate (vec : list bool) : res (list (nat * bool) * option warning) :=
  match vec with
  | [] => Err IndexErr
  | b :: rest => let spells := (0, b) :: changes 1 b (removelast rest) in Ok (spells, regime_warning spells)
  end.
(** [regime_starts[-1]] *)
Definition last_start (spells : list (nat * bool)) : nat := fst (last spells (0, false)).

Section Occbin.
  Variable F : Type.
  Variable O : rops F.
  (** scipy's [linalg.inv]: the size, the matrix *)
  Variable inv : nat -> mat F -> res (mat F).

  (** ** The linear systems *)

  (** A x(t+1) + B x(t) + C x(t-1) + D + E e(t) = 0; D is zero in the reference regime. *)
  Record system := System { sA : mat F; sB : mat F; sC : mat F; sD : vec F; sE : mat F }.

  (** Columns [cols] of a matrix *)
  Definition columns_of (cols : list nat) (a : mat F) : mat F := fun i j => a i (nth j cols 0).
  (** Position of a number in a list *)
  Fixpoint index_of (v : nat) (l : list nat) : option nat :=
    match l with
    | [] => None
    | a :: l' => if a =? v then Some 0 else match index_of v l' with Some j => Some (S j) | None => None end
    end.
  (** Broadcasting: index [i] into an axis of size [n]. *)
  Definition at_ (n i : nat) : nat := if n =? 1 then 0 else i.
  Definition fits (n m : nat) : bool := (n =? m) || (n =? 1).
  (** [out = np.zeros((n, n)); out[:, cols] = a]; [cols] has no repetitions. *)
  Definition set_columns (n : nat) (cols : list nat) (a : nd F) : res (mat F) :=
    let c := List.length cols in
    let place (get : nat -> nat -> F) : mat F := fun i v => match index_of v cols with Some j => get i j | None => r0 O end in
    match a with
    | S0 x => Ok (place (fun _ _ => x))
    | V1 m f => if fits m c then Ok (place (fun _ j => f (at_ m j))) else Err ValueErr
    | M2 r m f => if fits r n && fits m c then Ok (place (fun i j => f (at_ r i) (at_ m j))) else Err ValueErr
    end.
  (** [a[idx]] with an array of positions *)
  Definition take_rows (idx : list nat) (a : nd F) : res (nd F) :=
    match a with
    | S0 _ => Err IndexErr
    | V1 n f => if forallb (fun i => i <? n) idx then Ok (V1 (List.length idx) (fun i => f (nth i idx 0))) else Err IndexErr
    | M2 r c f => if forallb (fun i => i <? r) idx then Ok (M2 (List.length idx) c (fun i j => f (nth i idx 0) j)) else Err IndexErr
    end.
  (** The index of a decision-rule array read by binding.py:292-293, 449-450. *)
  Definition rule_matrix (x : indexes) (gy : nd F) : res (mat F) :=
    do g <- take_rows (dc_order x) gy; set_columns (n_endog x) (members is_state x) g.
  (** binding.py:293, 450 and the shape read at 575-578, 666-669: number of shocks and the matrix *)
  Definition shock_matrix (x : indexes) (gu : nd F) : res (nat * mat F) :=
    do g <- take_rows (dc_order x) gu;
    match g with
    | S0 _ => Err TypeErr
    | V1 _ f => Ok (1, fun i _ => f i)
    | M2 _ c f => Ok (c, f)
    end.

  (** binding.py:830-851 [_occbin_partitioned_jacobian].  The Jacobian has a row for each
      variable and a column for each entry of the index and each shock. *)
  Definition partition (x : indexes) (J : mat F) (D : vec F) : res system :=
    let n := n_endog x in
    do tm <- timed is_backward x (-1)%Z;
    do c <- set_columns n (members is_backward x) (M2 n (List.length tm) (columns_of tm J));
    do t0 <- timed is_cont x 0%Z;
    do b <- set_columns n (members is_cont x) (M2 n (List.length t0) (columns_of t0 J));
    do tp <- timed is_forward x 1%Z;
    do a <- set_columns n (members is_forward x) (M2 n (List.length tp) (columns_of tp J));
    Ok (System a b c D (columns_of (exogenous_jacobian x) J)).

  (** binding.py:934-943 [_translate_ss] *)
  Definition translate_ss {A} (x : indexes) (zero : A) (ss : list A) : res (list A) :=
    let idx := members is_backward x ++ members is_cont x ++ members is_forward x in
    if forallb (fun i => i <? List.length ss) idx then Ok (map (fun i => nth i ss zero) idx) else Err IndexErr.

  (** ** A path under a hypothesised sequence of regimes *)

  (** binding.py:593-603, 692-705, from period [i] - 1 down to 0: the rules of the later
      periods, those of the next one and the latest inverse.  In the reference regime
      [sD] is zero, and 603 leaves it out. *)
  Fixpoint roll (n : nat) (sys : nat -> system) (i : nat) (later : list (mat F * vec F)) (P : mat F) (D : vec F) (m : mat F)
    : res (list (mat F * vec F) * mat F) :=
    match i with
    | 0 => Ok (later, m)
    | S i' =>
        let q := sys i' in
        do im <- inv n (madd F O (mmul F O n (sA q) P) (sB q));
        let P' := mopp F O (mmul F O n im (sC q)) in
        let D' := vopp F O (mvec F O n im (vadd F O (mvec F O n (sA q) D) (sD q))) in
        roll n sys i' ((P', D') :: later) P' D' im
    end.
  (** binding.py:638-642, 751-756: the rules that are left, then the decision rule. *)
  Fixpoint follow (n : nat) (gy : mat F) (rules : list (mat F * vec F)) (count : nat) (h : vec F) : list (vec F) :=
    match count with
    | 0 => []
    | S c =>
        match rules with
        | (P, D) :: rs => let h' := vadd F O (mvec F O n P h) D in h' :: follow n gy rs c h'
        | [] => let h' := mvec F O n gy h in h' :: follow n gy [] c h'
        end
    end.
  (** binding.py:555-644 [_simulate_hypothesized_paths] and 648-758, the version for two
      constraints: they differ in the system of each period ([sys]) and of the period
      before the latest spell ([final]; [start] is the period where that spell begins).
      Simplification: the number of variables is not one, so that the squeezed product of
      line 632 (745) is a vector of that length. *)
  Definition guess_path (n k : nat) (gy gu : mat F) (sys : nat -> system) (final : system) (start periods : nat)
    (init innov : vec F) : res (list (vec F)) :=
    match start with
    | 0 =>
        let h := vadd F O (mvec F O n gy init) (mvec F O k gu innov) in
        Ok (h :: follow n gy [] periods h)
    | S b =>
        do im <- inv n (madd F O (mmul F O n (sA final) gy) (sB final));
        let P := mopp F O (mmul F O n im (sC final)) in
        let D := vopp F O (mvec F O n im (sD final)) in
        do r <- roll n sys b [(P, D)] P D im;
        let (rules, m) := r in
        let E := mopp F O (mmul F O n m (sE (if 0 <? b then sys 0 else final))) in
        match rules with
        | [] => Err IndexErr
        | (P0, D0) :: rs =>
            let h := vadd F O (vadd F O (mvec F O n P0 init) D0) (mvec F O k E innov) in
            Ok (h :: follow n gy rs periods h)
        end
    end.

  (** binding.py:595, 607: the regime of a period *)
  Definition regime1 (ref alt : system) (hypo : list bool) (t : nat) : system := if nth t hypo false then alt else ref.
  (** binding.py:320-327 *)
  Definition guess1 (n k : nat) (gy gu : mat F) (ref alt : system) (periods : nat) (hypo : list bool) (init innov : vec F)
    : res (list (vec F)) :=
    do s <- locate hypo;
    guess_path n k gy gu (regime1 ref alt hypo) alt (last_start (fst s)) periods init innov.

  (** binding.py:694-701, 709-716 *)
  Definition regime2 (ref alt0 alt1 dbl : system) (h0 h1 : list bool) (t : nat) : system :=
    if nth t h0 false && nth t h1 false then dbl
    else if nth t h0 false then alt0 else if nth t h1 false then alt1 else ref.
  (** binding.py:680-685, 719-724 *)
  Definition final2 (alt0 alt1 dbl : system) (h0 h1 : list bool) (t : nat) : system :=
    if nth t h0 false && nth t h1 false then dbl
    else if nth t h0 false then alt0 else alt1.
  (** binding.py:481-496, 672 *)
  Definition guess2 (n k : nat) (gy gu : mat F) (ref alt0 alt1 dbl : system) (periods : nat) (hypo : list (bool * bool)) (init innov : vec F)
    : res (list (vec F)) :=
    let h0 := map fst hypo in
    let h1 := map snd hypo in
    do s0 <- locate h0;
    do s1 <- locate h1;
    let start := Nat.max (last_start (fst s0)) (last_start (fst s1)) in
    guess_path n k gy gu (regime2 ref alt0 alt1 dbl h0 h1) (final2 alt0 alt1 dbl h0 h1 (start - 1)) start periods init innov.

  (** ** Guess and verify *)

  (** The shocks of a period: binding.py:617-623, 730-736.  One position takes the value
      itself, several take one value each. *)
  Inductive exog_index := OneShock (i : nat) | Shocks (l : list nat).
  Fixpoint set_many (k : nat) (l : list nat) (shock : list F) (v : vec F) : res (vec F) :=
    match l, shock with
    | [], _ => Ok v
    | _ :: _, [] => Err IndexErr
    | e :: l', s :: shock' => if e <? k then set_many k l' shock' (fun i => if i =? e then s else v i) else Err IndexErr
    end.
  Definition innovations (k : nat) (e : exog_index) (shock : list F) : res (vec F) :=
    match e with
    | OneShock i =>
        if i <? k then match shock with [s] => Ok (fun j => if j =? i then s else r0 O) | _ => Err ValueErr end
        else Err IndexErr
    | Shocks l => set_many k l shock (vzero F O)
    end.

  (** One run of the loop: what is hypothesised is [H]. *)
  Section Loop.
    Variable H : Type.
    (** the path under a hypothesis, from initial values and shocks *)
    Variable path : H -> vec F -> vec F -> res (list (vec F)).
    (** binding.py:331-342, 501-525: is there a mismatch, and the next hypothesis *)
    Variable judge : H -> list (vec F) -> res (bool * H).
    (** binding.py:348, 531 *)
    Variable shift : H -> H.

    (** What the names hold after the loop; [None] is a name without value. *)
    Record outcome := Outcome { o_guess : option (list (vec F)); o_hypo : H; o_change : bool; o_iter : nat }.
    (** binding.py:311-342, 472-525; [left] is [max_iter] - [current_iter] *)
    Fixpoint iterate (left : nat) (init innov : vec F) (o : outcome) : res outcome :=
      match left with
      | 0 => Ok o
      | S left' =>
          if o_change o then
            do g <- path (o_hypo o) init innov;
            do j <- judge (o_hypo o) g;
            iterate left' init innov (Outcome (Some g) (snd j) (fst j) (S (o_iter o)))
          else Ok o
      end.

    (** binding.py:309-353, 470-536.  [t] is the period; the result has the rows written to
        [paths] so far, the warnings and the last guess.  A row beyond the last one is an
        IndexError.  [vec_of] makes the innovations of a shock (made in the path's function;
        which of two errors comes first is not modelled). *)
    Fixpoint periods_loop (max_iter periods : nat) (vec_of : list F -> res (vec F)) (t : nat) (shocks : list (list F))
      (hypo : H) (init : vec F) (guess : option (list (vec F))) : res (list (vec F) * list bool * option (list (vec F))) :=
      match shocks with
      | [] => Ok ([], [], guess)
      | shk :: rest =>
          do o <- (match max_iter with 0 => Ok (Outcome guess hypo true 0) | _ => do e <- vec_of shk; iterate max_iter init e (Outcome guess hypo true 0) end);
          match o_guess o with
          | None => Err UnboundErr
          | Some g =>
              match g with
              | [] => Err IndexErr
              | first :: _ =>
                  if t <? periods then
                    do r <- periods_loop max_iter periods vec_of (S t) rest (shift (o_hypo o)) first (Some g);
                    let '(rows, warns, last) := r in
                    Ok (first :: rows, o_change o :: warns, last)
                  else Err IndexErr
              end
          end
      end.

    (** binding.py:304-366, 465-549: the rows of [paths], whether each period's loop ended in a
        warning, and the shocks with the zeros that are appended.  The rows left are read
        from the last guess ([guess[1:diff+1]]), which has no value without shocks; a
        number of rows other than [diff] cannot be assigned unless it is one. *)
    Definition solve_loop (max_iter periods : nat) (vec_of : list F -> res (vec F)) (width : nat) (shocks : list (list F)) (hypo : H) (init : vec F)
      : res (list (vec F) * list bool * list (list F)) :=
      do r <- periods_loop max_iter periods vec_of 0 shocks hypo init None;
      let '(rows, warns, last) := r in
      if List.length shocks <? periods then
        let diff := periods - List.length shocks in
        match last with
        | None => Err UnboundErr
        | Some g =>
            let tail := firstn diff (tl g) in
            if List.length tail =? diff then Ok (rows ++ tail, warns, shocks ++ repeat (repeat (r0 O) width) diff)
            else match tail with [v] => Ok (rows ++ repeat v diff, warns, shocks ++ repeat (repeat (r0 O) width) diff) | _ => Err ValueErr end
        end
      else Ok (rows, warns, shocks).
  End Loop.

  (** binding.py:335-342: [cs] are the two columns of the evaluated constraint; boolean
      indexing with another length is an IndexError. *)
  Definition mismatch (hypo : list bool) (cs : list (bool * bool)) : bool :=
    existsb (fun p => (fst (snd p) && negb (fst p)) || (fst p && snd (snd p))) (combine hypo cs).
  Definition next_hypo (hypo : list bool) (cs : list (bool * bool)) : list bool :=
    map (fun p => (fst p || fst (snd p)) && negb (fst p && snd (snd p))) (combine hypo cs).
  (** The evaluated constraint, [constraint(guess)]: any function of the path. *)
  Definition judge1 (constr : list (vec F) -> res (list (bool * bool))) (hypo : list bool) (g : list (vec F)) : res (bool * list bool) :=
    do cs <- constr g;
    if List.length cs =? List.length hypo then Ok (mismatch hypo cs, next_hypo hypo cs) else Err IndexErr.
  (** binding.py:348 *)
  Definition shift1 (hypo : list bool) : list bool := tl hypo ++ [false].

  (** binding.py:502-525: the columns one below the other, and back. *)
  Definition ravel (hypo : list (bool * bool)) : list bool := map fst hypo ++ map snd hypo.
  Definition unravel (l : list bool) : list (bool * bool) :=
    let h := List.length l / 2 in combine (firstn h l) (skipn h l).
  (** binding.py:513-520: [restrained] *)
  Definition next_restrained (hypo : list (bool * bool)) (cs : list (bool * bool)) : list (bool * bool) :=
    let h := List.length cs / 2 in
    let cs0 := firstn h cs in
    let cs1 := skipn h cs in
    let rest0 := map (fun p => fst p && snd (snd p)) (combine (map fst hypo) cs0) in
    let rest1 := map (fun p => fst p && snd (snd p)) (combine (map snd hypo) cs1) in
    let joint := unravel (map (fun p => fst p || fst (snd p)) (combine (ravel hypo) cs)) in
    map (fun p => (fst (fst p) && negb (fst (snd p)), snd (fst p) && negb (snd (snd p)))) (combine joint (combine rest0 rest1)).
  (** binding.py:501-525 *)
  Definition judge2 (restrained : bool) (constr : list (vec F) -> res (list (bool * bool))) (hypo : list (bool * bool)) (g : list (vec F))
    : res (bool * list (bool * bool)) :=
    do cs <- constr g;
    let long := ravel hypo in
    if List.length cs =? List.length long then
      Ok (mismatch long cs, if restrained then next_restrained hypo cs else unravel (next_hypo long cs))
    else Err IndexErr.
  (** binding.py:531 *)
  Definition shift2 (hypo : list (bool * bool)) : list (bool * bool) := tl hypo ++ [(false, false)].

  (** ** The solvers *)

  (** Shocks as given (or drawn): a vector, or rows of [width] numbers.  binding.py:776-788,
      800-813.  Simplification: arrays of one or two dimensions only. *)
  Inductive shock_array := Flat (l : list F) | Rows (width : nat) (l : list (list F)).
  Definition shock_rows (s : shock_array) : list (list F) := match s with Flat l => map (fun x => [x]) l | Rows _ l => l end.
  Definition shock_width (s : shock_array) : nat := match s with Flat _ => 1 | Rows w _ => w end.
  Definition check_shocks (e : exog_index) (s : shock_array) : res unit :=
    match e, s with
    | OneShock _, Flat _ => Ok tt
    | OneShock _, Rows w _ => if w =? 1 then Ok tt else Err ValueErr
    | Shocks _, Flat _ => Err ValueErr
    | Shocks l, Rows w _ => if List.length l =? w then Ok tt else Err ValueErr
    end.
  (** binding.py:788: [None] and 0 are replaced. *)
  Definition number_of_periods (p : option nat) (s : shock_array) : nat :=
    match p with Some (S m) => S m | _ => List.length (shock_rows s) end.

  (** A model: index, Jacobian (at the model's own steady state, binding.py:835; linearizing.py:52-63)
      and residuals at the reference's steady state ([_translate_ss] and [dynamic_repr],
      binding.py:300, 459-461).  Piecewise.v computes them from the equations. *)
  Record regime := Regime { g_index : indexes; g_jac : mat F; g_resid : vec F }.

  (** binding.py:227-368 [solve_occbin_one_constraint].  [init = None] are zeros. *)
  Definition occbin_one (ref alt : regime) (gy gu : nd F) (constr : list (vec F) -> res (list (bool * bool)))
    (e : exog_index) (shocks : shock_array) (init : option (vec F)) (periods : option nat) (max_iter : nat)
    : res (list (vec F) * list bool * list (list F)) :=
    do _ <- check_shocks e shocks;
    let p := number_of_periods periods shocks in
    let x := g_index ref in
    let n := n_endog x in
    do gyd <- rule_matrix x gy;
    do gud <- shock_matrix x gu;
    do r <- partition x (g_jac ref) (vzero F O);
    do a <- partition (g_index alt) (g_jac alt) (g_resid alt);
    solve_loop (list bool) (guess1 n (fst gud) gyd (snd gud) r a p) (judge1 constr) shift1
      max_iter p (innovations (fst gud) e) (shock_width shocks) (shock_rows shocks) (repeat false (S p))
      (match init with Some v => v | None => vzero F O end).

  (** binding.py:372-551 [solve_occbin_two_constraints] *)
  Definition occbin_two (ref alt0 alt1 dbl : regime) (gy gu : nd F) (constr : list (vec F) -> res (list (bool * bool)))
    (e : exog_index) (shocks : shock_array) (init : option (vec F)) (periods : option nat) (max_iter : nat) (restrained : bool)
    : res (list (vec F) * list bool * list (list F)) :=
    do _ <- check_shocks e shocks;
    let p := number_of_periods periods shocks in
    let x := g_index ref in
    let n := n_endog x in
    do gyd <- rule_matrix x gy;
    do gud <- shock_matrix x gu;
    do r <- partition x (g_jac ref) (vzero F O);
    do a0 <- partition (g_index alt0) (g_jac alt0) (g_resid alt0);
    do a1 <- partition (g_index alt1) (g_jac alt1) (g_resid alt1);
    do d <- partition (g_index dbl) (g_jac dbl) (g_resid dbl);
    solve_loop (list (bool * bool)) (guess2 n (fst gud) gyd (snd gud) r a0 a1 d p) (judge2 restrained constr) shift2
      max_iter p (innovations (fst gud) e) (shock_width shocks) (shock_rows shocks) (repeat (false, false) (S p))
      (match init with Some v => v | None => vzero F O end).
End Occbin.

(** ** Models that go together *)

Fixpoint insert_name (s : string) (l : list string) : list string :=
  match l with
  | [] => [s]
  | a :: l' => if (s <=? a)%string then s :: l else a :: insert_name s l'
  end.
Definition sort_names (l : list string) : list string := fold_right insert_name [] l.
Definition same_names (a b : list string) : bool := if list_eq_dec string_dec a b then true else false.
(** The names of a model *)
Record names := Names { nm_endog : list string; nm_stoch : list string; nm_params : list string }.
(** binding.py:900-930 [_ensure_variables_match]; [ModelVarError] is given by the group of names that differs *)
Inductive mismatch_of := EndogDiffer | StochDiffer | ParamsDiffer.
Definition ensure_match (a b : names) : option mismatch_of :=
  if negb (same_names (nm_endog a) (nm_endog b)) then Some EndogDiffer
  else if negb (same_names (nm_stoch a) (nm_stoch b)) then Some StochDiffer
  else if negb (same_names (sort_names (nm_params a)) (sort_names (nm_params b))) then Some ParamsDiffer
  else None.
