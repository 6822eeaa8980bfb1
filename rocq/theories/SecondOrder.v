(** The second-order solution: model of pynare/core/solve/second_order.py:27-442 and
    pynare/utils/numpy.py:129-159.

    The first-order solution, the Jacobian, the Hessian and the covariance matrix of the
    shocks are any arrays; arithmetic is exact.  LAPACK's routines are any functions of the
    size and the entries of their arguments. *)
From Verif Require Import Base Nd Mat Indexing Moments FirstOrder Sylvester.

Section SecondOrder.
  Variable F : Type.
  Variable O : rops F.
  Variable eqb : F -> F -> bool.
  Variable qz : nat -> mat F -> mat F -> res (mat F * mat F * mat F * mat F).
  Variable solve : nat -> nat -> mat F -> mat F -> res (mat F).
  Variable nan : F.

  (** ** numpy *)

  (** An index or an array of indices, and [a[i]]. *)
  Inductive loc := One (i : nat) | Many (l : list nat).
  Definition at_loc (t : loc) (a : nd F) : res (nd F) :=
    match a, t with
    | S0 _, _ => Err IndexErr
    | V1 n f, One i => if i <? n then Ok (S0 (f i)) else Err IndexErr
    | V1 n f, Many l => if forallb (fun i => i <? n) l then Ok (V1 (List.length l) (fun i => f (nth i l 0))) else Err IndexErr
    | M2 r c f, One i => if i <? r then Ok (V1 c (f i)) else Err IndexErr
    | M2 r c f, Many l => if forallb (fun i => i <? r) l then Ok (M2 (List.length l) c (fun i => f (nth i l 0))) else Err IndexErr
    end.
  (** [a[m]] for a mask [m] of the first axis *)
  Definition rows_where (m : list bool) (a : nd F) : res (nd F) :=
    match a with
    | S0 _ => Err IndexErr
    | V1 n f => if List.length m =? n then Ok (V1 (count_true m) (fun i => f (nth i (where_ m 0) 0))) else Err IndexErr
    | M2 r c f => if List.length m =? r then Ok (M2 (count_true m) c (fun i => f (nth i (where_ m 0) 0))) else Err IndexErr
    end.
  (** What is stored when [v] is assigned to a vector of length [n], to a matrix *)
  Definition fit1 (n : nat) (v : nd F) : res (vec F) :=
    match v with
    | S0 x => Ok (fun _ => x)
    | V1 k f => if (k =? n) || (k =? 1) then Ok (fun i => f (at_ k i)) else Err ValueErr
    | M2 r k f => if (r =? 1) && ((k =? n) || (k =? 1)) then Ok (fun i => f 0 (at_ k i)) else Err ValueErr
    end.
  Definition fit2 (n m : nat) (v : nd F) : res (mat F) :=
    match v with
    | S0 x => Ok (fun _ _ => x)
    | V1 k f => if (k =? m) || (k =? 1) then Ok (fun _ j => f (at_ k j)) else Err ValueErr
    | M2 r k f => if ((r =? n) || (r =? 1)) && ((k =? m) || (k =? 1)) then Ok (fun i j => f (at_ r i) (at_ k j)) else Err ValueErr
    end.
  (** [a[:, m] = v] for a mask [m] of the columns *)
  Definition put_where (m : list bool) (v : nd F) (a : nd F) : res (nd F) :=
    match a with
    | M2 r c f =>
        if negb (List.length m =? c) then Err IndexErr else
        do g <- fit2 r (count_true m) v;
        Ok (M2 r c (fun i j => if nth j m false then g i (count_true (firstn j m)) else f i j))
    | _ => Err IndexErr
    end.
  (** [a[:, t] = a[:, t] + v]; the indices in [t] are distinct here. *)
  Fixpoint place (l : list nat) (j : nat) : option nat :=
    match l with [] => None | i :: l' => if i =? j then Some 0 else option_map S (place l' j) end.
  Definition add_at (t : loc) (v : nd F) (a : nd F) : res (nd F) :=
    match a with
    | M2 r c f =>
        match t with
        | One p =>
            do old <- column F p a; do new <- nadd F O old v; do g <- fit1 r new;
            Ok (M2 r c (fun i j => if j =? p then g i else f i j))
        | Many l =>
            do old <- take_cols F l a; do new <- nadd F O old v; do g <- fit2 r (List.length l) new;
            Ok (M2 r c (fun i j => match place l j with Some p => g i p | None => f i j end))
        end
    | _ => Err IndexErr
    end.
  (** [a[:, -k:] = v]: all columns when [k] is zero *)
  Definition put_last (k : nat) (v : nd F) (a : nd F) : res (nd F) :=
    match a with
    | M2 r c f =>
        let s := if k =? 0 then 0 else c - k in
        do g <- fit2 r (c - s) v;
        Ok (M2 r c (fun i j => if j <? s then f i j else g i (j - s)))
    | _ => Err IndexErr
    end.
  Definition identity (n : nat) : nd F := M2 n n (mid F O).
  (** utils/numpy.py:129-159 [concatenate_maybe_1d] of four arrays on axis 0, and of three on
      axis 1 *)
  Definition concat4 (a b c d : nd F) : res (nd F) :=
    do t <- vstack F (ensure2 F a) (ensure2 F b); do t <- vstack F t (ensure2 F c); do t <- vstack F t (ensure2 F d); Ok (squeeze F t).
  Definition concat3 (a b c : nd F) : res (nd F) :=
    do t <- hstack F (ensure2 F a) (ensure2 F b); do t <- hstack F t (ensure2 F c); Ok (squeeze F t).
  (** [scipy.linalg.solve], where the right-hand side may be a vector *)
  Definition lsolve (a b : nd F) : res (nd F) :=
    match a, b with
    | M2 r c f, V1 n g =>
        if negb (r =? c) || negb (r =? n) then Err ValueErr else do x <- solve r 1 f (col F g); Ok (V1 r (fun i => x i 0))
    | M2 r c f, M2 n k g =>
        if negb (r =? c) || negb (r =? n) then Err ValueErr else do x <- solve r k f g; Ok (M2 r k x)
    | _, _ => Err ValueErr
    end.

  (** ** Indices (second_order.py:62-93) *)

  Definition present (row : list (option nat)) : list bool := map (fun o => negb (isnan o)) row.
  (** second_order.py:72-76 *)
  Definition tloc (x : indexes) : loc :=
    match seq (n_static x) (n_state x) with [i] => One i | l => Many l end.
  (** second_order.py:86-87 *)
  Definition dr_columns (x : indexes) : list nat :=
    let edr := not_nan (row_m (dr x) ++ row_0 (dr x) ++ row_p (dr x)) in
    edr ++ seq (List.length edr) (n_exog x).
  (** [hess[:, dr_sq[np.ix_(l, l)].flatten()]] where [dr_sq] counts the pairs of [w] columns
      (second_order.py:92-93, 110, 411-413) *)
  Definition pairs_of (w : nat) (l : list nat) (hess : nd F) : res (nd F) :=
    take_cols F (flat_map (fun a => map (fun b => a * w + b) l) l) hess.
  Definition width (x : indexes) : nat := List.length (dr_columns x).

  (** ** The system *)

  (** second_order.py:96-130 [_setup_system] *)
  Definition setup_system (x : indexes) (gy jac_ : nd F) : res (nd F * nd F * nd F * nd F) :=
    let n := n_endog x in
    let cont := row_0 (dr x) in let fore := row_p (dr x) in
    do cj <- take_cols F (not_nan cont) jac_;
    do fj <- take_cols F (not_nan fore) jac_;
    do A <- put_where (present cont) cj (zeros F O n n);
    do gf <- rows_where (present fore) gy;
    do up <- matmul_scalar F O fj gf;
    do A <- add_at (tloc x) up A;
    let B := identity (n_state x * n_state x) in
    do C <- put_last (List.length (not_nan fore)) fj (zeros F O n n);
    do gs <- at_loc (tloc x) gy;
    let D := ntrans F (nkron F O gs gs) in
    Ok (A, B, C, D).

  (** second_order.py:133-152 [_hess_coefs_dx] *)
  Definition hess_coefs_dx (x : indexes) (gy : nd F) : res (nd F) :=
    do cg <- rows_where (present (row_0 (dr x))) gy;
    do gf <- rows_where (present (row_p (dr x))) gy;
    do gs <- at_loc (tloc x) gy;
    do fg <- matmul_scalar F O gf gs;
    concat4 (identity (n_state x)) cg fg (zeros F O (n_exog x) (n_state x)).

  (** second_order.py:155-179 [_hess_coefs_du] *)
  Definition hess_coefs_du (x : indexes) (gy gu : nd F) : res (nd F) :=
    do cg <- rows_where (present (row_0 (dr x))) gu;
    do gf <- rows_where (present (row_p (dr x))) gy;
    do us <- at_loc (tloc x) gu;
    do fg <- (match matmul_scalar F O gf us with Err ValueErr => Ok (nouter F O gf us) | r => r end);
    concat4 (zeros F O (n_state x) (n_exog x)) cg fg (identity (n_exog x)).

  (** ** The solution *)

  (** second_order.py:209-237 [solve_ghxx] *)
  Definition solve_ghxx (A B C D zx hess : nd F) : res (nd F) :=
    do e <- matrix_kron F O hess zx None;
    generalized_sylvester F O eqb qz solve nan A B C D (nneg F O e).

  (** second_order.py:241-300 [solve_ghxu] *)
  Definition row_oriented (a : nd F) : nd F := match a with M2 _ c _ => if c =? 1 then ntrans F a else a | _ => a end.
  Definition solve_ghxu (t : loc) (gy gu A C ghxx zx zu hess : nd F) : res (nd F) :=
    do e <- matrix_kron F O hess (ensure2 F zx) (Some (ensure2 F zu));
    let E := squeeze F (nneg F O e) in
    do gs <- at_loc t gy; do us <- at_loc t gu;
    do p <- matrix_kron F O (ensure2 F ghxx) (ensure2 F gs) (Some (row_oriented (ensure2 F us)));
    do c <- matmul_scalar F O C (squeeze F p);
    do rhs_ <- nsub F O E c;
    lsolve A rhs_.

  (** second_order.py:304-358 [solve_ghuu] *)
  Definition solve_ghuu (t : loc) (gu A C ghxx zu hess : nd F) : res (nd F) :=
    do e <- matrix_kron F O hess zu None;
    do gx <- nmatmul F O C ghxx;
    do us <- at_loc t gu;
    do p <- matrix_kron F O (ensure2 F gx) (row_oriented (ensure2 F us)) None;
    do rhs_ <- nsub F O (nneg F O e) (squeeze F p);
    lsolve A rhs_.

  (** second_order.py:362-434 [solve_del2] *)
  Definition two : F := radd O (r1 O) (r1 O).
  Definition solve_del2 (x : indexes) (gy gu ghuu sigma jac_ hess : nd F) : res (nd F) :=
    let cont := row_0 (dr x) in let fore := row_p (dr x) in
    let fi := not_nan fore in
    do h <- pairs_of (width x) fi hess;
    do uf <- rows_where (present fore) gu;
    do b1 <- matrix_kron F O h uf None;
    do jf <- take_cols F fi jac_;
    do guf <- rows_where (present fore) ghuu;
    do a <- nmatmul F O jf guf; do r <- nadd F O a b1;
    do v <- matmul_scalar F O r (flatten F (ntrans F sigma));
    let rhs_ := nneg F O v in
    let nf := count_true (present fore) in
    let n := match jac_ with M2 r _ _ => r | _ => 0 end in
    do npf <- timed is_pure_forward x 1%Z;
    do gf <- rows_where (present fore) gy;
    do d <- concat3 (zeros F O nf (n_static x)) gf (zeros F O nf (List.length npf));
    do ef <- rows_where (present fore) (identity n);
    do df <- nadd F O ef d;
    do cj <- take_cols F (not_nan cont) jac_;
    do l <- put_where (present cont) cj (zeros F O n n);
    do m <- nmatmul F O jf df;
    do l <- nadd F O l m;
    do s <- lsolve l rhs_;
    Ok (nscale_div F O s two).

  (** second_order.py:182-205 [SecondOrderSolver.solve] and 27-34 [SecondOrderSolution.solve]:
      ghxx, ghxu, ghuu and del2.  The rearranged Hessian of line 110 is not used. *)
  Definition solve_second_order (x : indexes) (gy gu jac_ hess sigma : nd F) : res (nd F * nd F * nd F * nd F) :=
    do s <- setup_system x gy jac_;
    let '(A, B, C, D) := s in
    do zx <- hess_coefs_dx x gy;
    do zu <- hess_coefs_du x gy gu;
    do h <- pairs_of (width x) (dr_columns x) hess;
    do ghxx <- solve_ghxx A B C D zx h;
    do ghxu <- solve_ghxu (tloc x) gy gu A C ghxx zx zu h;
    do ghuu <- solve_ghuu (tloc x) gu A C ghxx zu h;
    do del2 <- solve_del2 x gy gu ghuu sigma jac_ hess;
    Ok (nscale_div F O ghxx two, ghxu, nscale_div F O ghuu two, del2).
End SecondOrder.
