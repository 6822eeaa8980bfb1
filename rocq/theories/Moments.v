(** Moments implied by a solution: model of pynare/stats/moments.py, pynare/stats/var.py
    and pynare/core/solve/statespace.py:75-106.

    What scipy and numpy compute by factorisations is any function ([lyap], [chol_low],
    [lsolve], [sqrt], [abs]); the theorems assume of them what their documentation says.
    Simplifications: arithmetic is exact, so a division by zero has a value instead of nan
    or infinity.  The outcome of [StateSpace.verify] is given: it is the same in the two
    calls of one evaluation (statespace.py:83, 95), because the first either raises or
    leaves the flag set. *)
From Verif Require Import Base Semantics Nd Sim Mat.
From Verif Require Indexing.

Section Moments.
  Variable F : Type.
  Variable O : rops F.
  (** [linalg.solve_discrete_lyapunov(A, Q)] on square matrices of a size. *)
  Variable lyap : nat -> mat F -> mat F -> res (mat F).
  (** [linalg.solve(a, b)] with a vector on the right. *)
  Variable lsolve : nat -> mat F -> vec F -> res (vec F).
  (** [linalg.cholesky(a, lower=True)] *)
  Variable chol_low : nat -> mat F -> res (mat F).
  Variable sqrt abs : F -> F.

  (** ** Indexing and small numpy functions *)

  (** [a[idx]] with an array of positions *)
  Definition take (idx : list nat) (a : nd F) : res (nd F) :=
    let inside n := forallb (fun i => i <? n) idx in
    match a with
    | S0 _ => Err IndexErr
    | V1 n f => if inside n then Ok (V1 (List.length idx) (fun i => f (nth i idx 0))) else Err IndexErr
    | M2 r c f => if inside r then Ok (M2 (List.length idx) c (fun i => f (nth i idx 0))) else Err IndexErr
    end.
  (** [a[:, idx]] *)
  Definition take_cols (idx : list nat) (a : nd F) : res (nd F) :=
    match a with
    | M2 r c f => if forallb (fun i => i <? c) idx then Ok (M2 r (List.length idx) (fun i j => f i (nth j idx 0))) else Err IndexErr
    | _ => Err IndexErr
    end.
  (** [a[:, i]] *)
  Definition column (i : nat) (a : nd F) : res (nd F) :=
    match a with M2 r c f => if i <? c then Ok (V1 r (fun a => f a i)) else Err IndexErr | _ => Err IndexErr end.
  (** [a.flatten()] *)
  Definition flatten (a : nd F) : nd F := V1 (nsize F a) (flat F a).
  (** [np.diag] of a matrix *)
  Definition diag (a : nd F) : nd F :=
    match a with
    | M2 r c f => V1 (Nat.min r c) (fun i => f i i)
    | V1 n f => M2 n n (fun i j => if i =? j then f i else r0 O)
    | S0 _ => a
    end.
  (** [Z[:, :] = v] for a matrix of [r] rows and [c] columns: the value is broadcast. *)
  Definition spread2 (r c : nat) (v : nd F) : res (nd F) :=
    if ((rows F v =? r) || (rows F v =? 1)) && ((cols F v =? c) || (cols F v =? 1))
    then Ok (M2 r c (fun i j => entry F v i j)) else Err ValueErr.
  (** [a @ b @ c], as it is written in the code: [matmul(a, matmul(b, c))] *)
  Definition mm3 (a b c : nd F) : res (nd F) := do t <- nmatmul F O b c; nmatmul F O a t.

  (** ** The state space *)

  (** model.py:328-344 [first_order_solution]: the arrays of the solution, or of its lower
      solution. *)
  Definition gy_first (s : lsol F) : nd F := match s with First gy _ => gy | Second gy _ _ _ _ _ => gy end.
  Definition gu_first (s : lsol F) : nd F := match s with First _ gu => gu | Second _ gu _ _ _ _ => gu end.
  Definition sigma_of (m : smodel F) : nd F :=
    let k := List.length (m_shocks m) in M2 k k (m_sigma m).

  (** statespace.py:90-106 *)
  Definition kalman_transition (verify : res unit) (m : smodel F) (s : lsol F) : res (nd F * nd F) :=
    do _ <- verify;
    let n := List.length (m_state m) in
    do g <- take (m_state m) (gy_first s);
    do A <- spread2 n n g;
    do B <- take (m_state m) (gu_first s);
    Ok (ensure2 F A, ensure2 F B).

  Definition lyapunov (A Q : nd F) : res (nd F) :=
    match A, Q with
    | M2 n _ a, M2 _ _ q => do x <- lyap n a q; Ok (M2 n n x)
    | _, _ => Err ValueErr
    end.

  (** statespace.py:75-88 *)
  Definition state_sigma (verify : res unit) (m : smodel F) (s : lsol F) : res (nd F) :=
    do _ <- verify;
    do AB <- kalman_transition verify m s;
    do Q <- mm3 (snd AB) (sigma_of m) (ntrans F (snd AB));
    lyapunov (fst AB) Q.

  (** ** stats/moments.py *)

  Definition dc_order (m : smodel F) : list nat := Indexing.argsort (m_order m).
  (** moments.py:159-161, 244-246 *)
  Definition declared (m : smodel F) (s : lsol F) : res (nd F * nd F) :=
    do gy <- take (dc_order m) (gy_first s);
    do gu <- take (dc_order m) (gu_first s);
    Ok (ensure2 F gy, ensure2 F gu).

  (** moments.py:130-169.  The solution is of order one or two (model.py:197-202). *)
  Definition cov (verify : res unit) (m : smodel F) (s : lsol F) : res (nd F) :=
    do g <- declared m s;
    do v <- state_sigma verify m s;
    do x_term <- mm3 (fst g) v (ntrans F (fst g));
    do u_term <- mm3 (snd g) (sigma_of m) (ntrans F (snd g));
    nadd F O x_term u_term.

  (** moments.py:71-85 *)
  Definition var (verify : res unit) (m : smodel F) (s : lsol F) : res (nd F) :=
    do c <- cov verify m s; Ok (diag c).
  (** moments.py:89-103 *)
  Definition std (verify : res unit) (m : smodel F) (s : lsol F) : res (nd F) :=
    do v <- var verify m s; Ok (nmap F sqrt v).
  (** moments.py:107-126 *)
  Definition corr (verify : res unit) (m : smodel F) (s : lsol F) : res (nd F) :=
    do c <- cov verify m s;
    let sd := nmap F sqrt (diag c) in
    elementwise F (rdiv O) c (nouter F O sd sd).

  (** moments.py:255-257 *)
  Fixpoint lags (p : nat) (gy A obs : nd F) : res (list (nd F)) :=
    match p with
    | 0 => Ok []
    | S p' =>
        do a <- nmatmul F O gy obs;
        do obs' <- nmatmul F O A obs;
        do rest <- lags p' gy A obs';
        Ok (a :: rest)
    end.
  (** moments.py:205-259.  A negative number of periods is a negative dimension (254). *)
  Definition autocov (verify : res unit) (m : smodel F) (s : lsol F) (p : Z) : res (list (nd F)) :=
    do v <- state_sigma verify m s;
    do AB <- kalman_transition verify m s;
    do g <- declared m s;
    do x_term <- mm3 (fst AB) v (ntrans F (fst g));
    do u_term <- mm3 (snd AB) (sigma_of m) (ntrans F (snd g));
    do obs <- nadd F O x_term u_term;
    if (p <? 0)%Z then Err ValueErr else lags (Z.to_nat p) (fst g) (fst AB) obs.
  (** moments.py:173-201 *)
  Definition autocorr (verify : res unit) (m : smodel F) (s : lsol F) (p : Z) : res (list (nd F)) :=
    do acv <- autocov verify m s p;
    do sd <- std verify m s;
    mapM (fun a => elementwise F (rdiv O) a (nouter F O sd sd)) acv.

  (** moments.py:52-53 and 58-59: [d + X vec(V) + U vec(S)], halved; [dot] is the product
      that is used. *)
  Definition second_terms (dot : nd F -> nd F -> res (nd F)) (d X U V S : nd F) : res (nd F) :=
    do xx <- dot X (flatten V);
    do uu <- dot U (flatten S);
    do a <- nadd F O d xx;
    do b <- nadd F O a uu;
    Ok (nscale_div F O b (two F O)).
  Definition solve_vec (a b : nd F) : res (nd F) :=
    match a, b with
    | M2 n _ f, V1 _ g => do x <- lsolve n f g; Ok (V1 n x)
    | _, _ => Err ValueErr
    end.
  (** moments.py:13-67 *)
  Definition mean (verify : res unit) (m : smodel F) (s : lsol F) : res (nd F) :=
    let n := List.length (m_ss m) in
    let ss := V1 n (get F O (m_ss m)) in
    match s with
    | First _ _ => Ok ss
    | Second gy gu ghxx ghxu ghuu del2 =>
        do v <- state_sigma verify m s;
        do AB <- kalman_transition verify m s;
        do d <- take (m_state m) del2;
        do X <- take (m_state m) ghxx;
        do U <- take (m_state m) ghuu;
        do so <- second_terms (ndot F O) d X U v (sigma_of m);
        let k := List.length (m_state m) in
        do IA <- nsub F O (M2 k k (mid F O)) (fst AB);
        do ex <- solve_vec IA so;
        do gx <- matmul_scalar F O gy ex;
        do rest <- second_terms (matmul_scalar F O) del2 ghxx ghuu v (sigma_of m);
        do adj <- nadd F O gx rest;
        do adj_dc <- take (dc_order m) adj;
        nadd F O ss adj_dc
    end.

  (** ** stats/var.py *)

  (** var.py:79: 1e-12 *)
  Definition ten : F := let x := two F O in radd O (rmul O x (rmul O x x)) x.
  Definition decomp_tol : F := rdiv O (r1 O) (Nat.iter 12 (rmul O ten) (r1 O)).

  (** var.py:78-81: the perturbed matrix and its lower Cholesky factor *)
  Definition perturbed (m : smodel F) : mat F := madd F O (m_sigma m) (mscale F O decomp_tol (mid F O)).

  (** var.py:73-108 *)
  Definition shares (verify : res unit) (m : smodel F) (s : lsol F) : res (nd F) :=
    let k := List.length (m_shocks m) in
    let n := List.length (m_ss m) in
    do gy <- take (dc_order m) (ensure2 F (gy_first s));
    do gu <- take (dc_order m) (ensure2 F (gu_first s));
    do AB <- kalman_transition verify m s;
    do L <- chol_low k (perturbed m);
    do state_chol <- nmatmul F O (snd AB) (M2 k k L);
    do gu_chol <- nmatmul F O gu (M2 k k L);
    do sigma_gu <- nmatmul F O state_chol (ntrans F state_chol);
    do _ <- lyapunov (fst AB) sigma_gu;
    do cols <- mapM (fun i =>
        do sc <- column i state_chol;
        do gc <- column i gu_chol;
        do vi <- lyapunov (fst AB) (nouter F O sc sc);
        do xi <- mm3 gy vi (ntrans F gy);
        do t <- nadd F O xi (nouter F O gc gc);
        Ok (row_of F (nmap F abs (diag t)) 0)) (seq 0 k);
    let decomp i j := nth j cols (fun _ => r0 O) i in
    let total i := rsum F O k (decomp i) in
    Ok (M2 n k (fun i j => rdiv O (decomp i j) (total i))).

  (** var.py:48-52, 116-120, 127-131: positions of names; [.item()] raises the ValueError
      that is turned into another unless there is exactly one. *)
  Definition locate (names : list string) (x : string) : res nat :=
    match where_ x names 0 with [i] => Ok i | _ => Err ValueErr end.

  (** var.py:14-146.  [endog] and [stoch] are lists of names (ensure_list); [names] are
      the endogenous names.  [None] is what a Python function without return gives; it
      cannot happen (136-143), since a list that is not empty gives positions. *)
  Definition var_decomp (verify : res unit) (m : smodel F) (s : lsol F) (names endog stoch : list string) : res (option (nd F)) :=
    let n := List.length (m_ss m) in
    if List.length (m_shocks m) =? 1 then
      let ones := M2 n 1 (fun _ _ => r1 O) in
      match endog with
      | [] => Ok (Some ones)
      | _ => do idx <- mapM (locate names) endog; do r <- take idx ones; Ok (Some r)
      end
    else
      do sh <- shares verify m s;
      do ei <- mapM (locate names) endog;
      do si <- mapM (locate (m_shocks m)) stoch;
      match endog, stoch with
      | [], [] => Ok (Some sh)
      | _, _ =>
          match ei, si with
          | _ :: _, _ :: _ => do a <- take ei sh; do b <- take_cols si a; Ok (Some b)
          | _ :: _, [] => do a <- take ei sh; Ok (Some a)
          | [], _ :: _ => do b <- take_cols si sh; Ok (Some b)
          | [], [] => Ok None
          end
      end.
End Moments.
