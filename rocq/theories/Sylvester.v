(** The generalised Sylvester equation: model of pynare/utils/numpy.py:396-545.

    Arithmetic is exact.  LAPACK's routines (generalised real Schur factorisation, solution
    of a linear system) are any functions of the size and the entries of their arguments. *)
From Verif Require Import Base Nd Mat FirstOrder.

Section Sylvester.
  Variable F : Type.
  Variable O : rops F.
  (** [==] of floating-point numbers. *)
  Variable eqb : F -> F -> bool.
  (** [scipy.linalg.qz(A, B, output='real')]: AA, BB, Q, Z. *)
  Variable qz : nat -> mat F -> mat F -> res (mat F * mat F * mat F * mat F).
  Variable solve : nat -> nat -> mat F -> mat F -> res (mat F).
  (** What is in a column of the result that was not computed (utils/numpy.py:493). *)
  Variable nan : F.
  Local Notation "x + y" := (radd O x y).
  Local Notation "x - y" := (rsub O x y).
  Local Notation "x * y" := (rmul O x y).

  (** [x.reshape(e.shape)] *)
  Definition reshape_as (e x : nd F) : res (nd F) :=
    if negb (nsize F e =? nsize F x) then Err ValueErr else
    Ok (match e with
        | S0 _ => S0 (flat F x 0)
        | V1 n _ => V1 n (flat F x)
        | M2 r c _ => M2 r c (fun i j => flat F x (i * c + j)%nat)
        end).
  (** An index into an axis of length [n]: one below zero counts from the end. *)
  Definition wrap (n : nat) (k : Z) : nat := Z.to_nat (if (k <? 0)%Z then (k + Z.of_nat n)%Z else k).

  (** The two pairs of factors, the sizes and the rotated right-hand side. *)
  Section Loop.
    Variables m n : nat.
    Variables P S T R : mat F.
    Variable f : mat F.

    (** utils/numpy.py:509-510, 535, [R[a, b]*P + T[a, b]*S] *)
    Definition combination (r t : F) : mat F := fun i j => r * P i j + t * S i j.
    (** utils/numpy.py:507-510 and 533-535: the part of row [a] of the equation that comes from
        the columns after [k], which are known. *)
    Definition known (a : nat) (k : Z) (Y : mat F) : vec F :=
      fold_left (fun y j =>
          let c := wrap n (k + 1 + Z.of_nat j)%Z in
          vadd F O y (mvec F O m (combination (R a c) (T a c)) (fun i => Y i c)))
        (seq 0 (Z.to_nat (Z.of_nat n - 1 - k))) (vzero F O).
    (** [Y[:, c] = v] *)
    Definition put (c : nat) (v : vec F) (Y : mat F) : mat F := fun i j => if j =? c then v i else Y i j.

    (** utils/numpy.py:503-525: two columns at once. *)
    Definition two_columns (k : Z) (Y : mat F) : res (mat F) :=
      let b := wrap n k in let a := wrap n (k - 1) in
      let ya := known a k Y in let yb := known b k Y in
      (* np.hstack of two vectors *)
      let g := fun i => if i <? m then f i a - ya i else f (i - m)%nat b - yb (i - m)%nat in
      let northwest := combination (R a a) (T a a) in
      let northeast := combination (R a b) (T a b) in
      let southwest := mscale F O (T b a) S in
      let southeast := combination (R b b) (T b b) in
      let block := vcat F m (hcat F m northwest northeast) (hcat F m southwest southeast) in
      do ys <- solve (m + m) 1 block (col F g);
      Ok (put b (fun i => ys (m + i)%nat 0) (put a (fun i => ys i 0) Y)).
    (** utils/numpy.py:529-537: one column. *)
    Definition one_column (k : Z) (Y : mat F) : res (mat F) :=
      let b := wrap n k in
      let yb := known b k Y in
      do y <- solve m 1 (combination (R b b) (T b b)) (col F (fun i => f i b - yb i));
      Ok (put b (fun i => y i 0) Y).
    (** utils/numpy.py:497-539, [steps] passages of the loop.  [R[k, k]] and [T[k, k-1]]
        are an IndexError when the index is out of range. *)
    Fixpoint columns (steps : nat) (k : Z) (Y : mat F) : res (mat F) :=
      match steps with
      | 0 => Ok Y
      | Datatypes.S steps' =>
          if (k - 1 <? - Z.of_nat n)%Z || (Z.of_nat n <=? k)%Z then Err IndexErr else
          if negb (eqb (T (wrap n k) (wrap n (k - 1))) (r0 O)) && negb (k =? 0)%Z
          then do Y' <- two_columns k Y; columns steps' (k - 2)%Z Y'
          else do Y' <- one_column k Y; columns steps' (k - 1)%Z Y'
      end.
    (** utils/numpy.py:498, [(T.diagonal(offset=-1) == 0).sum()+1] *)
    Definition passages : nat :=
      Datatypes.S (List.length (filter (fun i => eqb (T (Datatypes.S i) i) (r0 O)) (seq 0 (n - 1)))).
  End Loop.

  (** utils/numpy.py:464-545: the general case.  [final_transpose] is [False] on both
      branches; [m / n] with [n] zero is a ZeroDivisionError. *)
  Definition schur_method (m n : nat) (A B C D E : mat F) : res (nd F) :=
    if n =? 0 then Err GenericErr else
    do l <- qz m A C;
    do r <- qz n D B;
    let '(P, S_, Q1, Z1) := l in
    let '(T, R, Q2, Z2) := r in
    let f := mmul F O m (mtr F Q1) (mmul F O n E Q2) in
    do Y <- columns m n P S_ T R f (passages n T) (Z.of_nat n - 1)%Z (fun _ _ => nan);
    Ok (M2 m n (mmul F O m Z1 (mmul F O n Y (mtr F Z2)))).

  (** utils/numpy.py:396-545 [generalized_sylvester] *)
  Definition generalized_sylvester (A B C D E : nd F) : res (nd F) :=
    match ensure2 F A, ensure2 F B, ensure2 F C, ensure2 F D, ensure2 F E with
    | M2 m mc a, M2 n nc b, M2 m' mc' c, M2 n' nc' d, M2 er ec e =>
        if negb ((m =? m') && (mc =? mc')) then Err ValueErr else
        if negb (m =? mc) then Err ValueErr else
        if negb ((n =? n') && (nc =? nc')) then Err ValueErr else
        if negb (n =? nc) then Err ValueErr else
        if negb (m =? er) || negb (n =? ec) then Err ValueErr else
        if m =? 1 then
          do aB <- nmul F O (M2 m m a) (M2 n n b);
          do cD <- nmul F O (M2 m m c) (M2 n n d);
          do l <- nadd F O aB cD;
          do X <- nsolve F solve l (ntrans F (M2 m n e));
          reshape_as E (ntrans F X)
        else if n =? 1 then
          do bA <- nmul F O (M2 n n b) (M2 m m a);
          do dC <- nmul F O (M2 n n d) (M2 m m c);
          do l <- nadd F O bA dC;
          do X <- nsolve F solve l (M2 m n e);
          reshape_as E X
        else schur_method m n a b c d e
    | _, _, _, _, _ => Err ValueErr
    end.
End Sylvester.
