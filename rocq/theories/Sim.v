(** Simulation and impulse responses: model of pynare/simul.py and pynare/impulse.py,
    with pynare/core/variables.py:86-126 and the scaling of the second-order solution
    (pynare/core/solve/second_order.py:27-34, 434). *)
From Verif Require Import Base Semantics Nd.

Section Sim.
  Variable F : Type.
  Variable O : rops F.

  Definition two : F := radd O (r1 O) (r1 O).

  (** ** Rows of the array of paths *)

  Definition row := list F.
  Definition get (r : row) (i : nat) : F := nth i r (r0 O).
  Fixpoint put_at (i : nat) (x : F) (r : row) : row :=
    match r, i with
    | [], _ => []
    | _ :: r', 0 => x :: r'
    | y :: r', S i' => y :: put_at i' x r'
    end.
  (** The value of an assignment to [n] places: broadcast, leading axes of length one
      dropped. *)
  Definition spread (n : nat) (v : nd F) : res (nat -> F) :=
    let vec m f := if (m =? n) || (m =? 1) then Ok (fun i => f (at_ m i)) else Err ValueErr in
    match v with
    | S0 x => Ok (fun _ => x)
    | V1 m f => vec m f
    | M2 r c f => if r =? 1 then vec c (f 0) else Err ValueErr
    end.
  (** [dr_order[i]] *)
  Definition pick (l : list nat) (i : nat) : res nat :=
    match nth_error l i with Some x => Ok x | None => Err IndexErr end.
  (** [paths[t, order] = v] on a row of zeros: the values in order, the last one stays.
      [order] was an index of the lead-lag array, which has a column for every variable. *)
  Definition assign (n : nat) (order : list nat) (v : nd F) : res row :=
    do g <- spread (List.length order) v;
    if forallb (fun k => k <? n) order
    then Ok (fold_left (fun r p => put_at (fst p) (snd p) r) (combine order (map g (seq 0 (List.length order)))) (repeat (r0 O) n))
    else Err IndexErr.

  Definition add_rows (a b : row) : row := map (fun p => radd O (fst p) (snd p)) (combine a b).

  (** ** First order *)

  (** simul.py:168-172, 196, 204: with one state variable its position is a number and
      [yhat] a scalar. *)
  Definition read_state1 (dr_state : list nat) (prev : row) : nd F :=
    match dr_state with
    | [s] => S0 (get prev s)
    | _ => V1 (List.length dr_state) (fun j => get prev (nth j dr_state 0))
    end.

  (** simul.py:204-205 *)
  Definition step1 (n : nat) (gy : nd F) (order dr_state : list nat) (innov : nd F) (prev : row) : res row :=
    do a <- ndot F O gy (read_state1 dr_state prev);
    do b <- nadd F O a innov;
    assign n order b.

  (** simul.py:203-205: [left] further rows, of which the next uses the shocks of [t]. *)
  Fixpoint walk (step : nat -> row -> res row) (t left : nat) (prev : row) : res (list row) :=
    match left with
    | 0 => Ok [prev]
    | S left' => do r <- step t prev; do rs <- walk step (S t) left' r; Ok (prev :: rs)
    end.

  Definition matrix_row (a : nd F) (t : nat) : nd F :=
    match a with M2 _ c f => V1 c (f t) | _ => a end.

  (** simul.py:182-209.  [ys] is the steady state; [shocks] is a matrix. *)
  Definition simulate_first (ys : row) (gy gu : nd F) (order state : list nat) (shocks init : nd F) : res (list row) :=
    let n := List.length ys in
    let T := rows F shocks in
    do dev <- nsub F O init (V1 n (get ys));
    do g <- spread n dev;
    if T =? 0 then Err IndexErr else
    let first := map g (seq 0 n) in
    do innovs <- nmatmul F O shocks (ntrans F (ensure2 F gu));
    do dr_state <- mapM (pick order) state;
    if nsize F gu =? 0 then Err NotImplErr
    else if nsize F gy =? 0 then Err NotImplErr
    else
      do devs <- walk (fun t prev => step1 n gy order dr_state (matrix_row innovs t) prev) 0 (T - 1) first;
      Ok (map (fun r => add_rows r ys) devs).

  (** ** Second order *)

  (** simul.py:240-252 *)
  Definition step2 (n : nat) (ys : row) (gy gu ghxx ghxu ghuu const : nd F) (order dr_state : list nat)
      (ut : nd F) (prev : row) : res row :=
    let yhat := V1 (List.length dr_state) (fun j => rsub O (get prev (nth j dr_state 0)) (get ys (nth j dr_state 0))) in
    do dy <- matmul_scalar F O gy yhat;
    do du <- matmul_scalar F O gu ut;
    do dydy <- matrix_kron F O ghxx yhat None;
    do dudu <- matrix_kron F O ghuu ut None;
    do dydu <- matrix_kron F O ghxu yhat (Some ut);
    do s1 <- nadd F O const dy;
    do s2 <- nadd F O s1 du;
    do s3 <- nadd F O s2 dydy;
    do s4 <- nadd F O s3 dudu;
    do s5 <- nadd F O s4 dydu;
    assign n order s5.

  (** simul.py:219-254.  [ghxx ... del2] are the attributes of the solution. *)
  Definition simulate_second (ys : row) (gy gu ghxx ghxu ghuu del2 : nd F) (order state : list nat)
      (shocks init : nd F) : res (list row) :=
    let n := List.length ys in
    let T := rows F shocks in
    do g <- spread n init;
    if T =? 0 then Err IndexErr else
    let first := map g (seq 0 n) in
    let half a := ensure2 F (nscale_div F O a two) in
    do dr_state <- mapM (pick order) state;
    do const <- nadd F O (squeeze F (half del2)) (V1 (List.length order) (fun i => get ys (nth i order 0)));
    walk (fun t prev => step2 n ys gy gu (half ghxx) (ensure2 F ghxu) (half ghuu) const order dr_state (matrix_row shocks t) prev)
      0 (T - 1) first.

  (** ** Solutions and the simulator *)

  (** What SecondOrderSolver finds (second_order.py:191-205), before scaling; the solver's
      [del2] is halved at second_order.py:434. *)
  Record derivatives := Derivatives { gxx : nd F; gxu : nd F; guu : nd F; gss : nd F }.
  Inductive lsol :=
  | First (gy gu : nd F)
  | Second (gy gu ghxx ghxu ghuu del2 : nd F).
  (** second_order.py:27-34, 434 *)
  Definition second_solution (gy gu : nd F) (d : derivatives) : lsol :=
    Second gy gu (nscale_div F O (gxx d) two) (gxu d) (nscale_div F O (guu d) two) (nscale_div F O (gss d) two).

  (** What the simulator reads of a model: steady state, orders, number of shocks and
      their covariance matrix. *)
  Record smodel := SModel { m_ss : row; m_order : list nat; m_state : list nat; m_shocks : list string;
    m_sigma : nat -> nat -> F }.

  (** [linalg.cholesky]: upper triangular, or LinAlgError.  Any function stands for it. *)
  Variable chol : nat -> (nat -> nat -> F) -> res (nat -> nat -> F).

  (** simul.py:331-356.  [noise] is what the generator draws. *)
  Definition gen_shocks (m : smodel) (given : option (nd F)) (periods : nat) (noise : nat -> nat -> F) : res (nd F) :=
    let k := List.length (m_shocks m) in
    do R <- chol k (m_sigma m);
    match given with
    | None => nmatmul F O (M2 periods k noise) (M2 k k R)
    | Some s => nmatmul F O (ensure2 F s) (M2 k k R)
    end.

  (** simul.py:256-273 *)
  Definition simulate (m : smodel) (s : lsol) (given : option (nd F)) (periods : nat) (noise : nat -> nat -> F)
      (init : option (nd F)) : res (list row) :=
    do sh <- gen_shocks m given periods noise;
    let init := match init with Some i => i | None => V1 (List.length (m_ss m)) (get (m_ss m)) end in
    match s with
    | First gy gu => simulate_first (m_ss m) gy gu (m_order m) (m_state m) sh init
    | Second gy gu ghxx ghxu ghuu del2 =>
        simulate_second (m_ss m) gy gu ghxx ghxu ghuu del2 (m_order m) (m_state m) sh init
    end.

  (** ** Impulse responses *)

  (** [np.where(name == names)[0]] *)
  Fixpoint where_ (x : string) (names : list string) (k : nat) : list nat :=
    match names with
    | [] => []
    | y :: names' => if String.eqb x y then k :: where_ x names' (S k) else where_ x names' (S k)
    end.
  (** variables.py:86-126 [get_loc]; one name or several *)
  Inductive key := One (x : string) | Many (xs : list string).
  Definition loc1 (names : list string) (x : string) : res nat :=
    match where_ x names 0 with [] => Err KeyErr | [i] => Ok i | _ => Err ValueErr end.
  Definition get_loc (names : list string) (k : key) : res (list nat) :=
    match k with One x => do i <- loc1 names x; Ok [i] | Many xs => mapM (loc1 names) xs end.

  (** impulse.py:72-87 *)
  Definition impulse_response (m : smodel) (s : lsol) (exog : option key) (periods : nat) (size : F) : res (list row) :=
    do idx <- match exog with None => Ok [0] | Some k => get_loc (m_shocks m) k end;
    let k := List.length (m_shocks m) in
    if (periods =? 0) || existsb (fun i => k <=? i) idx then Err IndexErr else
    let sh := M2 periods k (fun t j => if (t =? 0) && existsb (Nat.eqb j) idx then size else r0 O) in
    do paths <- simulate m s (Some sh) 200 (fun _ _ => r0 O) None;
    Ok (map (fun r => map (fun p => rsub O (fst p) (snd p)) (combine r (m_ss m))) paths).

  (** ** Simulated paths *)

  (** simul.py:378-389 *)
  Definition drop_paths (paths : list row) (drop : Z) : res (list row) :=
    if (drop <? 0)%Z then Err ValueErr
    else if (Z.of_nat (List.length paths) <? drop)%Z then Err ValueErr
    else Ok (skipn (Z.to_nat drop) paths).

  (** A number for counts; [sqrt] is numpy's. *)
  Variable of_nat : nat -> F.
  Variable sqrt : F -> F.

  Definition cell (paths : list row) (t j : nat) : F := get (nth t paths []) j.
  (** [np.mean(axis=0)], and [np.var(axis=0)], [np.std(axis=0)] without correction *)
  Definition mean (paths : list row) (j : nat) : F :=
    rdiv O (rsum F O (List.length paths) (fun t => cell paths t j)) (of_nat (List.length paths)).
  Definition centred (paths : list row) (t j : nat) : F := rsub O (cell paths t j) (mean paths j).
  Definition variance (paths : list row) (j : nat) : F :=
    rdiv O (rsum F O (List.length paths) (fun t => rmul O (centred paths t j) (centred paths t j))) (of_nat (List.length paths)).

  (** simul.py:66-75.  A path without periods has NaN entries, which are not modelled. *)
  Definition corr (paths : list row) (drop : Z) : res (nat -> nat -> F) :=
    do p <- drop_paths paths drop;
    let std j := sqrt (variance p j) in
    Ok (fun i j =>
      rdiv O (rdiv O (rsum F O (List.length p) (fun t => rmul O (centred p t i) (centred p t j))) (of_nat (List.length p)))
        (rmul O (std i) (std j))).

  (** simul.py:104-131; entry [i, k-1] is the k-th autocorrelation of variable i. *)
  Definition autocorr (paths : list row) (p : nat) (drop : Z) : res (nat -> nat -> F) :=
    do q <- drop_paths paths drop;
    let T := List.length q in
    if T <? p then Err ValueErr else
    Ok (fun i k' =>
      let k := S k' in
      rdiv O (rdiv O (rsum F O (T - k) (fun t => rmul O (centred q (t + k) i) (centred q t i))) (of_nat (T - k)))
        (variance q i)).
End Sim.
Arguments First {F}. Arguments Second {F}. Arguments Derivatives {F}. Arguments SModel {F}.
Arguments m_ss {F}. Arguments m_order {F}. Arguments m_state {F}. Arguments m_shocks {F}. Arguments m_sigma {F}.
Arguments gxx {F}. Arguments gxu {F}. Arguments guu {F}. Arguments gss {F}.
