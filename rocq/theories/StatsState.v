(** Statistics of a model in any state: the model's state (ModelState.v) with what its state
    space keeps between calls, joined to the statistics (Moments.v).  Model of
    pynare/stats/moments.py, pynare/stats/var.py:40-146, pynare/stats/stats.py:24-52 and
    pynare/core/solve/statespace.py:39-106.

    [StateSpace.sigma] and [StateSpace.kalman_transition] are cached properties
    (statespace.py:75, 90) and [is_verified] is a flag of the object (41): they last until
    [update] makes another state space (generic.py:438). *)
From Verif Require Import Base Syntax Lexer Parser Eval Semantics Factory Indexing DynFunc Vars ExprList ModelState Nd Mat Linearize Steady SteadyValues FirstOrder SecondOrder Pipeline Sim Moments PathSim.

Section StatsState.
  Variable F : Type.
  Variable O : rops F.
  Variable P : ops F.
  Variable ltb : F -> F -> bool.
  Variable isnum : F -> bool.
  Variable nan : F.
  Variable minimize : solver -> (list F -> res F) -> list F -> res (list F).
  Variable rank : nat -> nat -> mat F -> nat.
  Variable lyap : nat -> mat F -> mat F -> res (mat F).
  Variable lsolve : nat -> mat F -> vec F -> res (vec F).
  Variable chol_low : nat -> mat F -> res (mat F).
  Variable sqrt abs : F -> F.
  Variable truthy : F -> bool.
  Variable float_of : text -> option F.
  Variable trunc : F -> option Z.
  Variable parse_text : text -> res (ast F).
  Variable keeps : bool.
  Variable space : list (option F) -> steady_repr F -> repr F -> res (space_of F).
  Variable solver_ : option (rules F * matrix F) -> list (option F) -> steady_repr F -> repr F -> space_of F -> res (rules F).

  Notation mstate := (ModelState.mstate F (space_of F) (rules F)).
  Notation update := (ModelState.update F P (r0 O) isnum (space_of F) (rules F) space).
  Notation solve := (ModelState.solve F P (r0 O) isnum (space_of F) (rules F) space solver_).
  Notation solve_one := (ModelState.solve_one F P (r0 O) isnum (space_of F) (rules F) space solver_).
  Notation step := (ModelState.step F P (r0 O) (r1 O) truthy isnum float_of trunc parse_text keeps (space_of F) (rules F) space solver_).
  Notation definition := (ModelState.definition F (space_of F) (rules F)).
  Notation derived := (ModelState.derived F (space_of F) (rules F)).
  Notation altered := (ModelState.altered F (space_of F) (rules F)).
  Notation solution := (ModelState.solution F (space_of F) (rules F)).
  Notation no_sigma := (ModelState.no_sigma F (space_of F) (rules F)).

  (** ** What a state space keeps *)

  (** [is_verified] (statespace.py:41), [kalman_transition] and [sigma] (75-106). *)
  Record memo := Memo { verified : option bool; transition : option (nd F * nd F); variance : option (nd F) }.
  Definition blank : memo := Memo None None None.
  Definition sstate : Type := mstate * memo.

  (** Whether an operation on the model makes a new state space, that is whether an update
      comes to its end (generic.py:427-438).  It repeats the conditions of ModelState.v under
      which there is an update (generic.py:326-359, first_order.py:19-25, second_order.py:25-34,
      simul.py:154-156, 312-324). *)
  Definition updated (m : mstate) : bool := match update m with (_, Ok _) => true | (_, Err _) => false end.
  Definition solve_renews (order : nat) (m : mstate) : bool :=
    let o := if order =? 0 then 2 else order in
    if (o =? 1) || (o =? 2) then
      (altered m && updated m) ||
      ((o =? 2) && match solve_one m with (m1, Ok _) => (altered m1 || no_sigma m1) && updated m1 | (_, Err _) => false end)
    else false.
  Definition renewed (o : op F) (m : mstate) : bool :=
    match o with
    | Read RSigma => (altered m || no_sigma m) && updated m
    | Read _ => altered m && updated m
    | Solve o => solve_renews o m
    | ReadSolution => match solution m with Some _ => false | None => solve_renews 2 m end
    | Simulate o =>
        let stored := match solution m with Some _ => o =? 0 | None => false end in
        if stored then updated m
        else solve_renews o m || match solve o m with (m1, Ok _) => updated m1 | (_, Err _) => false end
    | _ => false
    end.

  (** ** Computations that change the model *)

  Definition M (A : Type) : Type := sstate -> sstate * res A.
  Definition ret {A} (a : A) : M A := fun s => (s, Ok a).
  Definition lift {A} (r : res A) : M A := fun s => (s, r).
  Definition bnd {A B} (x : M A) (f : A -> M B) : M B :=
    fun s => match x s with (s1, Ok a) => f a s1 | (s1, Err e) => (s1, Err e) end.

  (** An operation on the model, with what is kept after it; and whether the state space is
      still the one before. *)
  Definition on_model (o : op F) : M (out F (space_of F) (rules F) * bool) :=
    fun s => let p := step o (fst s) in
             let new := renewed o (fst s) in
             ((fst p, if new then blank else snd s), do a <- snd p; Ok (a, negb new)).

  Definition the_solution : M (rules F * bool) :=
    bnd (on_model ReadSolution) (fun p => match p with (OSolution s, b) => ret (s, b) | _ => lift (Err TypeErr) end).
  Definition the_indexes : M indexes :=
    bnd (on_model (Read RIndexes)) (fun p => match p with (OValue (VIndexes x), _) => ret x | _ => lift (Err TypeErr) end).
  Definition the_space : M (space_of F) :=
    bnd (on_model (Read RSpace)) (fun p => match p with (OValue (VSpace sp), _) => ret sp | _ => lift (Err TypeErr) end).
  (** [len(model.stoch)] *)
  Definition n_stoch : M nat := fun s => (s, Ok (List.length (d_stoch F (definition (fst s))))).
  (** [model.sigma] *)
  Definition the_sigma : M (nd F * bool) :=
    bnd (on_model (Read RSigma)) (fun p => match p with
      | (OValue (VSigma sg), b) => bnd n_stoch (fun k => ret (M2 k k sg, b))
      | _ => lift (Err TypeErr) end).

  (** ** The state space *)

  (** statespace.py:58-59: [(abs > 1) | isinf(abs)] *)
  Definition outside (e : cnum F) : bool :=
    match e with Fin re im => ltb (r1 O) (radd O (rmul O re re) (rmul O im im)) | Inf => true | Nan => false end.
  (** statespace.py:54-72; both errors are a ModelIdentificationError. *)
  Definition run_verification (sp : space_of F) (x : indexes) : res unit :=
    if negb (List.length (filter outside (eigen (sp_state sp))) =? n_forward x) then Err GenericErr
    else match Z22 (sp_state sp) with
      | M2 r c f => if rank r c f =? r then Ok tt else Err GenericErr
      | _ => Err GenericErr
      end.
  Definition set_verified (b : bool) (k : memo) : memo := Memo (Some b) (transition k) (variance k).
  (** statespace.py:44-51 *)
  Definition verify : M unit :=
    bnd the_space (fun sp s =>
      match verified (snd s) with
      | Some _ => (s, Ok tt)
      | None => bnd the_indexes (fun x s =>
          let r := run_verification sp x in
          ((fst s, set_verified (match r with Ok _ => true | Err _ => false end) (snd s)), r)) s
      end).

  (** The positions that are read from the indexes. *)
  Definition places (x : indexes) : smodel F := SModel [] (dr_order x) (members is_state (dr x)) [] (fun _ _ => r0 O).
  (** The cached property is stored in the object whose property it is: if the model has a
      new one by then, that one has nothing stored. *)
  Definition store_transition (same : bool) (v : nd F * nd F) : M unit :=
    fun s => ((fst s, if same then Memo (verified (snd s)) (Some v) (variance (snd s)) else snd s), Ok tt).
  Definition store_variance (same : bool) (v : nd F) : M unit :=
    fun s => ((fst s, if same then Memo (verified (snd s)) (transition (snd s)) (Some v) else snd s), Ok tt).

  (** statespace.py:90-106 *)
  Definition the_transition : M ((nd F * nd F) * bool) :=
    bnd the_space (fun _ s =>
      match transition (snd s) with
      | Some v => (s, Ok (v, true))
      | None =>
          bnd verify (fun _ =>
          bnd the_solution (fun sol =>
          bnd the_indexes (fun x =>
          bnd (lift (kalman_transition F (Ok tt) (places x) (as_sim F (fst sol)))) (fun v =>
          bnd (store_transition (snd sol) v) (fun _ => ret (v, snd sol)))))) s
      end).
  (** statespace.py:75-88 *)
  Definition the_variance : M (nd F) :=
    bnd the_space (fun _ s =>
      match variance (snd s) with
      | Some v => (s, Ok v)
      | None =>
          bnd verify (fun _ =>
          bnd the_transition (fun t =>
          bnd the_sigma (fun sg =>
          bnd (lift (do Q <- mm3 F O (snd (fst t)) (fst sg) (ntrans F (snd (fst t))); lyapunov F lyap (fst (fst t)) Q)) (fun v =>
          bnd (store_variance (snd t && snd sg) v) (fun _ => ret v))))) s
      end).

  (** ** stats/moments.py *)

  (** moments.py:130-169 *)
  Definition cov : M (nd F) :=
    bnd the_solution (fun sol =>
    bnd the_indexes (fun x =>
    bnd (lift (declared F (places x) (as_sim F (fst sol)))) (fun g =>
    bnd the_variance (fun v =>
    bnd (lift (mm3 F O (fst g) v (ntrans F (fst g)))) (fun x_term =>
    bnd the_sigma (fun sg =>
    lift (do u_term <- mm3 F O (snd g) (fst sg) (ntrans F (snd g)); nadd F O x_term u_term))))))).
  (** moments.py:71-85, 89-103, 107-126 *)
  Definition var : M (nd F) := bnd cov (fun c => ret (diag F O c)).
  Definition std : M (nd F) := bnd var (fun v => ret (nmap F sqrt v)).
  Definition corr : M (nd F) :=
    bnd cov (fun c => let sd := nmap F sqrt (diag F O c) in lift (elementwise F (rdiv O) c (nouter F O sd sd))).
  (** moments.py:205-259 *)
  Definition autocov (p : Z) : M (list (nd F)) :=
    bnd the_solution (fun sol =>
    bnd the_variance (fun v =>
    bnd the_transition (fun t =>
    bnd the_indexes (fun x =>
    bnd (lift (declared F (places x) (as_sim F (fst sol)))) (fun g =>
    bnd (lift (mm3 F O (fst (fst t)) v (ntrans F (fst g)))) (fun x_term =>
    bnd the_sigma (fun sg =>
    lift (do u_term <- mm3 F O (snd (fst t)) (fst sg) (ntrans F (snd g));
          do obs <- nadd F O x_term u_term;
          if (p <? 0)%Z then Err ValueErr else lags F O (Z.to_nat p) (fst g) (fst (fst t)) obs)))))))).
  (** moments.py:173-201 *)
  Definition autocorr (p : Z) : M (list (nd F)) :=
    bnd (autocov p) (fun acv => bnd std (fun sd =>
    lift (mapM (fun a => elementwise F (rdiv O) a (nouter F O sd sd)) acv))).
  (** [md.ss.values] (moments.py:32, generic.py:188-194) is computed anew for every reading,
      for the up-to-date representation of the steady state. *)
  Definition the_steady : M (list F) :=
    bnd (on_model (Read RSteady)) (fun _ s =>
      let d := definition (fst s) in let c := derived (fst s) in
      (s, ss_values F O P nan minimize (map ev_init (d_endog F d)) (c_steady _ _ c) (c_dynamic _ _ c))).
  (** moments.py:37-67: what is done with the steady state and the solution *)
  Definition mean_tail (l : list F) (sol : rules F * bool) : M (nd F) :=
    let ss := V1 (List.length l) (get F O l) in
    match as_sim F (fst sol) with
    | Sim.First _ _ => ret ss
    | Sim.Second gy _ ghxx _ ghuu del2 =>
        bnd the_variance (fun v =>
        bnd the_transition (fun t =>
        bnd the_indexes (fun x =>
        bnd the_sigma (fun sg =>
        let st := members is_state (dr x) in
        lift (do d <- take F st del2;
              do X <- take F st ghxx;
              do U <- take F st ghuu;
              do so <- second_terms F O (ndot F O) d X U v (fst sg);
              let k := List.length st in
              do IA <- nsub F O (M2 k k (mid F O)) (fst (fst t));
              do ex <- solve_vec F lsolve IA so;
              do gx <- matmul_scalar F O gy ex;
              do rest <- second_terms F O (matmul_scalar F O) del2 ghxx ghuu v (fst sg);
              do adj <- nadd F O gx rest;
              do adj_dc <- take F (dc_order F (places x)) adj;
              nadd F O ss adj_dc)))))
    end.
  (** moments.py:32-37: first the steady state, then the solution *)
  Definition mean : M (nd F) := bnd the_steady (fun l => bnd the_solution (mean_tail l)).

  (** ** stats/var.py *)

  (** var.py:73-108; the covariance matrix [Sg] is that of [k] shocks. *)
  Definition shares : M (nd F) :=
    bnd the_solution (fun sol =>
    bnd the_indexes (fun x =>
    bnd (lift (take F (dc_order F (places x)) (ensure2 F (gy_first F (as_sim F (fst sol)))))) (fun gy =>
    bnd (lift (take F (dc_order F (places x)) (ensure2 F (gu_first F (as_sim F (fst sol)))))) (fun gu =>
    bnd the_transition (fun t =>
    bnd the_sigma (fun sg =>
    bnd n_stoch (fun k => fun s =>
    let n := List.length (d_endog F (definition (fst s))) in
    (s,
    do L <- chol_low k (madd F O (match fst sg with M2 _ _ f => f | _ => fun _ _ => r0 O end) (mscale F O (decomp_tol F O) (mid F O)));
    do state_chol <- nmatmul F O (snd (fst t)) (M2 k k L);
    do gu_chol <- nmatmul F O gu (M2 k k L);
    do sigma_gu <- nmatmul F O state_chol (ntrans F state_chol);
    do _ <- lyapunov F lyap (fst (fst t)) sigma_gu;
    do cols <- mapM (fun i =>
        do sc <- column F i state_chol;
        do gc <- column F i gu_chol;
        do vi <- lyapunov F lyap (fst (fst t)) (nouter F O sc sc);
        do xi <- mm3 F O gy vi (ntrans F gy);
        do t <- nadd F O xi (nouter F O gc gc);
        Ok (row_of F (nmap F abs (diag F O t)) 0)) (seq 0 k);
    let decomp i j := nth j cols (fun _ => r0 O) i in
    let total i := rsum F O k (decomp i) in
    Ok (M2 n k (fun i j => rdiv O (decomp i j) (total i))))))))))).

  (** var.py:40-55: with one shock there is nothing to compute. *)
  Definition decomposition : M (nd F) :=
    bnd n_stoch (fun k s =>
      if k =? 1 then (s, Ok (M2 (List.length (d_endog F (definition (fst s)))) 1 (fun _ _ => r1 O))) else shares s).

  (** ** Histories with statistics *)

  (** The statistics of a model ([model.stats], stats.py:24-52), and the properties of its
      state space.  The selections of var.py:111-143 read the table and the names; only the
      whole table is modelled here (Moments.var_decomp has them). *)
  Inductive query := Mean | Var | Std | Cov | Corr | Autocov (p : Z) | Autocorr (p : Z) | Shares
  | Transition | StateVariance | Verify.
  Inductive answer := Array (a : nd F) | Arrays (l : list (nd F)) | Two (a b : nd F) | Nothing.
  Definition ask (q : query) : M answer :=
    match q with
    | Mean => bnd mean (fun a => ret (Array a))
    | Var => bnd var (fun a => ret (Array a))
    | Std => bnd std (fun a => ret (Array a))
    | Cov => bnd cov (fun a => ret (Array a))
    | Corr => bnd corr (fun a => ret (Array a))
    | Autocov p => bnd (autocov p) (fun l => ret (Arrays l))
    | Autocorr p => bnd (autocorr p) (fun l => ret (Arrays l))
    | Shares => bnd decomposition (fun a => ret (Array a))
    | Transition => bnd the_transition (fun t => ret (Two (fst (fst t)) (snd (fst t))))
    | StateVariance => bnd the_variance (fun v => ret (Array v))
    | Verify => bnd verify (fun _ => ret Nothing)
    end.

  (** What a user does: operations of ModelState.v, and questions. *)
  Inductive sop := Do (o : op F) | Ask (q : query).
  Inductive sout := Did (o : out F (space_of F) (rules F)) | Answer (a : answer).
  Definition sstep (o : sop) : M sout :=
    match o with
    | Do o => bnd (on_model o) (fun p => ret (Did (fst p)))
    | Ask q => bnd (ask q) (fun a => ret (Answer a))
    end.
  (** The user catches exceptions and goes on. *)
  Fixpoint srun (os : list sop) (s : sstate) : sstate * list (sop * res sout) :=
    match os with
    | [] => (s, [])
    | o :: os' => let (s1, r) := sstep o s in let (s2, l) := srun os' s1 in (s2, (o, r) :: l)
    end.
End StatsState.
Arguments Do {F} o. Arguments Ask {F} q. Arguments Did {F} o. Arguments Answer {F} a.
Arguments Array {F} a. Arguments Arrays {F} l. Arguments Two {F} a b. Arguments Nothing {F}.
