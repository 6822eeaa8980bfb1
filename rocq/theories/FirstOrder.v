(** The state space of a model and its first-order solution: model of
    pynare/core/solve/statespace.py:19-41, 126-200, pynare/core/solve/first_order.py:47-226
    and pynare/utils/numpy.py:12-17, 263-289.

    The Jacobian is any matrix; arithmetic is exact.  LAPACK's routines (complete QR, rank,
    ordered QZ, inverse, solution of a linear system) are any functions of the size and the
    entries of their arguments. *)
From Verif Require Import Base Nd Mat Indexing Moments.

(** A generalised eigenvalue alpha/beta, a complex floating-point number: x/0 is infinite
    and 0/0 is not a number (utils/numpy.py:265-267). *)
Inductive cnum (F : Type) := Fin (re im : F) | Inf | Nan.
Arguments Fin {F}. Arguments Inf {F}. Arguments Nan {F}.

(** What [scipy.linalg.ordqz(A, B)] returns (utils/numpy.py:263): A = Q S Z', B = Q T Z' and
    the quotients of [alph] and [bet]. *)
Record schur (F : Type) := Schur { q_S : mat F; q_T : mat F; q_eig : list (cnum F); q_Q : mat F; q_Z : mat F }.
Arguments Schur {F}. Arguments q_S {F}. Arguments q_T {F}. Arguments q_eig {F}. Arguments q_Q {F}. Arguments q_Z {F}.

(** The attributes of the state space that the solution reads (statespace.py:26-37). *)
Record state (F : Type) := State {
  jac : nd F; lhs : nd F; rhs : nd F; eigen : list (cnum F);
  Z11 : nd F; Z12 : nd F; Z21 : nd F; Z22 : nd F; T11 : nd F; S11 : nd F }.
Arguments State {F}. Arguments jac {F}. Arguments lhs {F}. Arguments rhs {F}. Arguments eigen {F}.
Arguments Z11 {F}. Arguments Z12 {F}. Arguments Z21 {F}. Arguments Z22 {F}. Arguments T11 {F}. Arguments S11 {F}.

Section FirstOrder.
  Variable F : Type.
  Variable O : rops F.
  (** [<] of floating-point numbers. *)
  Variable ltb : F -> F -> bool.
  Variable qr : nat -> nat -> mat F -> res (mat F * mat F).
  Variable rank : nat -> nat -> mat F -> nat.
  Variable ordqz : nat -> mat F -> mat F -> res (schur F).
  Variable inv : nat -> mat F -> res (mat F).
  Variable solve : nat -> nat -> mat F -> mat F -> res (mat F).

  (** ** numpy on matrices *)

  (** [np.hstack] and [np.vstack] of two matrices *)
  Definition hstack (a b : nd F) : res (nd F) :=
    match a, b with
    | M2 r c f, M2 r' c' g => if r =? r' then Ok (M2 r (c + c') (hcat F c f g)) else Err ValueErr
    | _, _ => Err ValueErr
    end.
  Definition vstack (a b : nd F) : res (nd F) :=
    match a, b with
    | M2 r c f, M2 r' c' g => if c =? c' then Ok (M2 (r + r') c (vcat F r f g)) else Err ValueErr
    | _, _ => Err ValueErr
    end.
  (** [np.block([[a, b], [c, d]])] *)
  Definition block (a b c d : nd F) : res (nd F) := do t <- hstack a b; do u <- hstack c d; vstack t u.
  (** [np.zeros((r, c))], [np.eye(r, c, k)] *)
  Definition zeros (r c : nat) : nd F := M2 r c (fun _ _ => r0 O).
  Definition eye (r c : nat) (k : Z) : nd F :=
    M2 r c (fun i j => if (Z.of_nat j - Z.of_nat i =? k)%Z then r1 O else r0 O).
  (** [a[-k:]] (which is all of [a] when [k] is zero), [a[:k]] *)
  Definition last_rows (k : nat) (a : nd F) : nd F :=
    match a with
    | M2 r c f => let s := if k =? 0 then 0 else r - k in M2 (r - s) c (fun i => f (s + i))
    | _ => a
    end.
  Definition first_rows (k : nat) (a : nd F) : nd F :=
    match a with M2 r c f => M2 (Nat.min k r) c f | _ => a end.
  (** [np.linalg.inv], [np.linalg.solve]; a matrix that is not square is a LinAlgError. *)
  Definition ninv (a : nd F) : res (nd F) :=
    match a with
    | M2 r c f => if r =? c then do g <- inv r f; Ok (M2 r r g) else Err GenericErr
    | _ => Err GenericErr
    end.
  Definition nsolve (a b : nd F) : res (nd F) :=
    match a, b with
    | M2 r c f, M2 r' c' g =>
        if negb (r =? c) then Err GenericErr else if negb (r =? r') then Err ValueErr else
        do x <- solve r c' f g; Ok (M2 r c' x)
    | _, _ => Err GenericErr
    end.

  (** ** The structural state space *)

  (** statespace.py:143-158: the Jacobian, rotated when there are static variables.
      [ModelIdentificationError(_r, n_static)] has the message of errors/__init__.py:45-49,
      which is left out. *)
  Definition rotated (x : indexes) (J : nd F) : res (nd F) :=
    do ns <- timed is_static x 0%Z;
    match ns with
    | [] => Ok J
    | _ :: _ =>
        do Js <- take_cols F ns J;
        match Js with
        | M2 n s f =>
            do qr_ <- qr n s f;
            if rank n s (snd qr_) =? n_static x then ndot F O (M2 n n (mtr F (fst qr_))) J else Err (ModelIdErr "")
        | _ => Err ValueErr
        end
    end.

  (** statespace.py:126-200 [_compute_structural_state_space]: D, E and the Jacobian.
      [n_dynamic] is not negative. *)
  Definition structural (x : indexes) (J : nd F) : res (nd F * nd F * nd F) :=
    do A <- rotated x J;
    let nd_ := Z.to_nat (n_dynamic x) in
    do fp <- timed is_forward (dr x) 1%Z; do Ap <- take_cols F fp (last_rows nd_ A);
    do bm <- timed is_backward (dr x) (-1)%Z; do Am <- take_cols F bm (last_rows nd_ A);
    do f0 <- timed is_forward (dr x) 0%Z; do A0p <- take_cols F f0 (last_rows nd_ A);
    do b0 <- timed is_pure_backward (dr x) 0%Z; do A0m <- take_cols F b0 (last_rows nd_ A);
    let A0m := if nsize F A0m =? 0 then zeros nd_ 1 else A0m in
    let nm := n_mixed x in
    if 0 <? nm then
      let nb := n_backward x in
      let nf := n_forward x in
      let n_diff := (Z.of_nat (n_endog x) - (Z.of_nat nf + Z.of_nat (n_static x)))%Z in
      do mI <- (if (n_diff =? 0)%Z then Ok (A0m, eye nm nb 0%Z)
                else do a <- hstack A0m (zeros nd_ nm); Ok (a, eye nm nb n_diff));
      let Ip := eye nm nf 0%Z in
      do D <- block (fst mI) Ap (snd mI) (zeros nm nf);
      do E <- block (nneg F O Am) (nneg F O A0p) (zeros nm nb) Ip;
      Ok (D, E, A)
    else
      do D <- hstack A0m Ap;
      do E <- hstack Am A0p;
      Ok (D, nneg F O E, A).

  (** ** The partition of the Schur factors *)

  (** utils/numpy.py:12-17 [find_first]; [argmax] of an empty array is a ValueError. *)
  Fixpoint first_true (v : list bool) (i : nat) : option nat :=
    match v with [] => None | b :: v' => if b then Some i else first_true v' (S i) end.
  Definition find_first (v : list bool) : res Z :=
    match v with
    | [] => Err ValueErr
    | _ :: _ => Ok (match first_true v 0 with Some i => Z.of_nat i | None => (-1)%Z end)
    end.
  (** utils/numpy.py:270, [(eigs > 1) | np.isinf(eigs)]: the eigenvalues are complex, so [>]
      compares the real parts and, when these are equal, the imaginary parts. *)
  Definition above (e : cnum F) : bool :=
    match e with
    | Fin re im => ltb (r1 O) re || (negb (ltb re (r1 O)) && negb (ltb (r1 O) re) && ltb (r0 O) im)
    | Inf => true
    | Nan => false
    end.
  (** Where [a[:k]] and [a[k:]] cut an axis of length [n]. *)
  Definition cut (n : nat) (k : Z) : nat :=
    if (k <? 0)%Z then Z.to_nat (Z.max 0 (Z.of_nat n + k)) else Nat.min n (Z.to_nat k).

  (** utils/numpy.py:263-289 [partitioned_qz(A, B)] and statespace.py:26-37; matrices that
      are not square or not of one size are a ValueError of [ordqz].  The blocks that
      nothing reads (T_12, T_22, S_12, S_22) are left out. *)
  Definition partitioned_qz (A D E : nd F) : res (state F) :=
    match D, E with
    | M2 r c d, M2 r' c' e =>
        if negb ((r =? c) && (r' =? c') && (r =? r')) then Err ValueErr else
        do q <- ordqz r e d;
        do k <- find_first (map above (q_eig q));
        let m := cut r k in
        let Z := mtr F (q_Z q) in
        Ok (State A D E (q_eig q)
              (M2 m m Z) (M2 m (r - m) (sub F 0 m Z)) (M2 (r - m) m (sub F m 0 Z)) (M2 (r - m) (r - m) (sub F m m Z))
              (M2 m m (q_T q)) (M2 m m (q_S q)))
    | _, _ => Err ValueErr
    end.
  (** statespace.py:19-41 *)
  Definition state_space (x : indexes) (J : nd F) : res (state F) :=
    do t <- structural x J; partitioned_qz (snd t) (fst (fst t)) (snd (fst t)).

  (** ** The solution *)

  (** first_order.py:128-141 [solve_nonstatic_endo]: gym, gyp *)
  Definition solve_nonstatic (s : state F) : res (nd F * nd F) :=
    do p <- nsolve (Z22 s) (Z21 s);
    let Z11t := ntrans F (Z11 s) in
    do it <- ninv (T11 s); do a <- ndot F O Z11t it;
    do iz <- ninv Z11t; do b <- ndot F O (S11 s) iz;
    do gym <- ndot F O a b;
    Ok (gym, nneg F O p).

  (** first_order.py:171-189 [solve_static_endo] *)
  Definition solve_static (A : nd F) (x : indexes) (gym gyp : nd F) : res (nd F) :=
    let top := first_rows (n_static x) A in
    do fp <- timed is_forward (dr x) 1%Z; do Ap <- take_cols F fp top;
    do bm <- timed is_backward (dr x) (-1)%Z; do Am <- take_cols F bm top;
    do s0 <- timed is_static (dr x) 0%Z; do A0s <- take_cols F s0 top;
    do dj <- timed is_dynamic (dr x) 0%Z; do A0d <- take_cols F dj top;
    do gyd <- array_shingle F gym gyp (Z.of_nat (n_mixed x));
    do a <- ndot F O Ap gyp; do Agp <- ndot F O a gym;
    do Agd <- ndot F O A0d gyd;
    do i <- ninv A0s;
    do b <- nadd F O Agp Agd; do c <- nadd F O b Am;
    do g <- ndot F O i c;
    Ok (nneg F O g).

  (** first_order.py:218-226 [solve_exo] *)
  Definition solve_exo (A : nd F) (x : indexes) (gyp fu : nd F) : res (nd F) :=
    do s0 <- timed is_static (dr x) 0%Z; do cs <- take_cols F s0 A;
    do b0 <- timed is_backward (dr x) 0%Z; do cb <- take_cols F b0 A;
    do f0 <- timed is_pure_forward (dr x) 0%Z; do cf <- take_cols F f0 A;
    do fp <- timed is_forward (dr x) 1%Z; do Ap <- take_cols F fp A;
    do a <- ndot F O Ap gyp; do ib <- nadd F O a cb;
    do u <- hstack cs ib; do U <- hstack u cf;
    do g <- nsolve U fu;
    Ok (nneg F O g).

  (** first_order.py:77-102 [solve_first_order]; without shocks, line 95 reads the name [J],
      which is not defined. *)
  Definition solve_first_order (x : indexes) (s : state F) : res (nd F * nd F) :=
    let A := jac s in
    do g <- solve_nonstatic s;
    do gyd <- array_shingle F (fst g) (snd g) (Z.of_nat (n_mixed x));
    do gys <- solve_static A x (fst g) (snd g);
    do gy <- vstack gys gyd;
    do fu <- (if 0 <? n_exog x then take_cols F (exogenous_jacobian x) A else Err NameErr);
    do gu <- solve_exo A x (snd g) fu;
    Ok (squeeze F gy, squeeze F gu).
End FirstOrder.
