(** Filters: model of pynare/stats/filters.py, of the observed models of
    pynare/stats/observation.py:28-103 as far as filters use them, and of
    pynare/utils/numpy.py:549-595.

    What LAPACK and scipy compute ([potrf], [potri], [lyap], [lsolve], [det]) and the
    logarithm are any functions.  Simplification: arithmetic is exact. *)
From Verif Require Import Base Nd Sim Mat Moments.
Local Open Scope string_scope.
Local Open Scope list_scope.
Local Open Scope nat_scope.

Section Filters.
  Variable F : Type.
  Variable O : rops F.

  (** ** Data *)

  (** A column label of a pandas object: a string, or anything else. *)
  Inductive label := Name (x : string) | Other.
  (** A data frame with its labels and [r] rows, a series of [n] values with its label
      (a series without a name gets the label 0), or anything numpy turns into an array. *)
  Inductive dataset :=
  | Frame (labels : list label) (r : nat) (f : mat F)
  | Series (l : label) (n : nat) (f : vec F)
  | Array (a : nd F).
  (** filters.py:292-315 *)
  Definition preprocess (d : dataset) : nd F * list label :=
    match d with
    | Frame ls r f => (M2 r (List.length ls) f, ls)
    | Series l n f => (M2 n 1 (fun i _ => f i), [l])
    | Array a => (a, [])
    end.

  (** variables.py:73-78 [__contains__], for a label *)
  Definition observed (obs : list string) (l : label) : bool :=
    match l with Name x => existsb (String.eqb x) obs | Other => false end.
  (** variables.py:109-118 [get_loc], for a label *)
  Definition label_loc (obs : list string) (l : label) : res nat :=
    match l with Name x => loc1 obs x | Other => Err KeyErr end.

  (** filters.py:46-70: the array that the filter keeps *)
  Definition filter_data (obs : list string) (d : dataset) : res (nd F) :=
    let (arr, labels) := preprocess d in
    match labels with
    | [] =>
        match arr with
        | M2 _ c _ => if c =? List.length obs then Ok arr else Err ValueErr
        | _ => Err IndexErr
        end
    | _ :: _ =>
        if negb (List.length labels =? List.length obs) then Err ValueErr
        else if negb (forallb (observed obs) labels) then Err NameErr
        else do idx <- mapM (label_loc obs) labels; take_cols F idx arr
    end.

  (** ** The objects *)

  (** A model to be filtered: one that has its observed variables, or one for which
      equations are given (name and right-hand side).  [build] is the construction of
      the observed model, observation.py:41-70. *)
  Inductive modelarg := Ready (obs : list string) | Bare.
  Variable build : list (string * string) -> res unit.
  Record filt := Filt { f_obs : list string; f_data : nd F; f_warned : bool }.
  (** observation.py:33-42: the observed variables are the keys of the dictionary *)
  Definition observed_model (exprs : list (string * string)) : res (list string) :=
    match exprs with [] => Err ValueErr | _ => do _ <- build exprs; Ok (map fst exprs) end.
  (** filters.py:24-70 *)
  Definition model_filter (m : modelarg) (d : dataset) (exprs : list (string * string)) : res filt :=
    do ow <- match m with
             | Ready obs => Ok (obs, match exprs with [] => false | _ => true end)
             | Bare => do obs <- observed_model exprs; Ok (obs, false)
             end;
    do a <- filter_data (fst ow) d;
    Ok (Filt (fst ow) a (snd ow)).
  (** filters.py:85-97 *)
  Definition kalman (m : modelarg) (d : dataset) (exprs : list (string * string)) (init : string) : res filt :=
    do f <- model_filter m d exprs;
    if String.eqb init "" then Ok f else Err NotImplErr.
  (** filters.py:180-194 *)
  Definition filter_model (m : modelarg) (d : dataset) (exprs : list (string * string)) (kind init : string) : res filt :=
    if String.eqb kind "kalman" then kalman m d exprs init else Err NotImplErr.

  (** The attributes that the constructors set: filters.py:38-48, 97. *)
  Definition attributes : list string := ["model"; "obs"; "data"; "init"].
  Definition attribute (x : string) : res unit :=
    if existsb (String.eqb x) attributes then Ok tt else Err AttrErr.
  (** filters.py:100-111 [indices]: nothing after the attribute is reached. *)
  Definition indices : res unit := attribute "meas_idx".

  (** ** Inverse of a symmetric matrix *)

  (** LAPACK's dpotrf and dpotri, [None] when the returned [info] is not zero.  Only the
      upper triangles of the results matter. *)
  Variable potrf potri : nat -> mat F -> option (mat F).
  (** utils/numpy.py:583-595 *)
  Definition upper_to_symmetric (u : mat F) : mat F := fun i j => if j <? i then u j i else u i j.
  (** utils/numpy.py:549-578 *)
  Definition inv_sym_pd (n : nat) (a : mat F) : res (mat F) :=
    match potrf n a with
    | None => Err ValueErr
    | Some c => match potri n c with None => Err ValueErr | Some v => Ok (upper_to_symmetric v) end
    end.

  (** ** Kalman recursions *)

  Variable det : nat -> mat F -> F.
  Variable log : F -> F.
  Variable lyap : nat -> mat F -> mat F -> res (mat F).
  (** [linalg.solve(a, b, assume_a='sym')] with a vector on the right. *)
  Variable symsolve : nat -> mat F -> vec F -> res (vec F).
  (** [np.log(2*np.pi)] *)
  Variable log2pi : F.

  (** [data[i]] *)
  Definition data_row (i : nat) (a : nd F) : res (nd F) :=
    match a with M2 r c f => if i <? r then Ok (V1 c (f i)) else Err IndexErr | _ => Err IndexErr end.
  (** [P[np.ix_(locs, locs)]] *)
  Definition block (locs : list nat) (P : nd F) : res (nd F) := do a <- take F locs P; take_cols F locs a.
  Definition inverse (a : nd F) : res (nd F) :=
    match a with M2 n _ f => do v <- inv_sym_pd n f; Ok (M2 n n v) | _ => Err ValueErr end.
  Definition logdet (a : nd F) : F := match a with M2 n _ f => log (det n f) | _ => r0 O end.

  (** filters.py:274-283: one period; the predictions for the next, and the covariance
      [Ft] *)
  Definition kalman_step (T Q : nd F) (locs : list nat) (y x P : nd F) : res (nd F * nd F * nd F) :=
    do xl <- take F locs x;
    do vt <- nsub F O y xl;
    do Ft <- block locs P;
    do Fi <- inverse Ft;
    do Pl <- take_cols F locs P;
    do PFi <- nmatmul F O Pl Fi;
    do g <- ndot F O PFi vt;
    do xtt <- nadd F O x g;
    do Pr <- take F locs P;
    do KP <- nmatmul F O PFi Pr;
    do Ptt <- nsub F O P KP;
    do x' <- ndot F O T xtt;
    do TPT <- mm3 F O T Ptt (ntrans F T);
    do P' <- nadd F O TPT Q;
    Ok (x', P', Ft).
  (** filters.py:273-288, from period [i], for [n] periods *)
  Fixpoint kalman_loop (data T Q : nd F) (locs : list nat) (i n : nat) (x P : nd F) (llk : F) : res F :=
    match n with
    | 0 => Ok llk
    | S n' =>
        do y <- data_row i data;
        do s <- kalman_step T Q locs y x P;
        kalman_loop data T Q locs (S i) n' (fst (fst s)) (snd (fst s)) (radd O llk (logdet (snd s)))
    end.
  (** filters.py:250-288; [data.shape[0]] *)
  Definition simple_kalman (data x0 P0 T Q : nd F) (locs : list nat) : res F :=
    match data with
    | S0 _ => Err IndexErr
    | V1 n _ | M2 n _ _ => kalman_loop data T Q locs 0 n x0 P0 (r0 O)
    end.

  Definition nof (n : nat) : F := rsum F O n (fun _ => r1 O).
  (** filters.py:225-246: one period; the state and the log-likelihood.  [Pt] is not
      changed by the loop. *)
  Definition loglike_step (T Z Pt : nd F) (n_vars : nat) (y : nd F) (s : nd F * F) (counted : bool) : res (nd F * F) :=
    do Zx <- ndot F O Z (fst s);
    do vt <- nsub F O y Zx;
    do PtZh <- nmatmul F O Pt (ntrans F Z);
    do Ft <- nmatmul F O Z PtZh;
    do Ft2 <- nadd F O Ft (ntrans F Ft);
    let Ft := nscale_div F O Ft2 (two F O) in
    do w <- match Ft, vt with
            | M2 n _ f, V1 m v => if n =? m then do w <- symsolve n f v; Ok (V1 n w) else Err ValueErr
            | _, _ => Err ValueErr
            end;
    do q <- ndot F O vt w;
    do q <- item F q;
    let term := rdiv O (radd O (radd O (rmul O (nof n_vars) log2pi) (logdet Ft)) q) (two F O) in
    let llk := if counted then rsub O (snd s) term else snd s in
    do g <- nmatmul F O PtZh w;
    do xtt <- nadd F O (fst s) g;
    do x' <- ndot F O T xtt;
    Ok (x', llk).
  Fixpoint loglike_loop (data T Z Pt : nd F) (n_vars start i n : nat) (s : nd F * F) : res (nd F * F) :=
    match n with
    | 0 => Ok s
    | S n' =>
        do y <- data_row i data;
        do s' <- loglike_step T Z Pt n_vars y s (start <=? i);
        loglike_loop data T Z Pt n_vars start (S i) n' s'
    end.
  (** filters.py:198-246: the function ends without a return statement. *)
  Definition kalman_loglikelihood (data x0 P0 T Z : nd F) (start : nat) : res (option F) :=
    match data with
    | M2 n n_vars _ =>
        do _ <- data_row 0 data;
        do _ <- loglike_loop data T Z P0 n_vars start 0 n (x0, r0 O);
        Ok None
    | _ => Err ValueErr
    end.

  (** A model with observed variables, as far as a filter reads it: its name, the
      positions of the states in declaration order, the covariance of the shocks, and the
      outcomes of solving it to first order and of looking up the observed variables. *)
  Record omodel := OModel { o_name : string; o_state : list nat; o_sigma : nd F; o_first : res (nd F * nd F); o_locs : res (list nat) }.
  (** observation.py:78-103 *)
  Definition observed_solution (m : omodel) : res (nd F * nd F * nd F) :=
    if negb (String.eqb (o_name m) "herbst_schorfheide") then Err NotImplErr else
    do g <- o_first m;
    do _ <- o_locs m;
    do Z_tm1 <- take F (seq 0 7) (fst g);
    do T <- take F (o_state m) (fst g);
    do R <- take F (o_state m) (snd g);
    do Z <- nmatmul F O Z_tm1 T;
    Ok (T, R, Z).
  (** filters.py:144-161 *)
  Definition loglike (m : omodel) (data : nd F) : res (option F) :=
    do s <- observed_solution m;
    let '(T, R, Z) := s in
    do Q <- mm3 F O R (o_sigma m) (ntrans F R);
    do P <- lyapunov F lyap T Q;
    match shape F T with
    | [] => Err TypeErr
    | n :: _ => kalman_loglikelihood data (V1 n (fun _ => r0 O)) P T Z 0
    end.
  (** filters.py:129-142, 164-176: the first thing that is read is [self.init_state],
      and the first thing that reads is [self.indices].  [rest] is what follows. *)
  Definition filter (rest : res F) : res F := do _ <- indices; rest.
End Filters.
Arguments Frame {F}. Arguments Series {F}. Arguments Array {F}. Arguments f_obs {F}. Arguments f_data {F}. Arguments f_warned {F}. Arguments Filt {F}.
Arguments o_name {F}. Arguments OModel {F}.
