(** Arrays of at most two dimensions: the part of numpy that the numerical code of
    pynare uses, after numpy's documentation (numpy is not in /repo and was not run), and
    the helpers of pynare/utils/numpy.py:12-126, 129-159, 293-392.

    Entries are in any type with ring operations.  Simplification: floating-point
    arithmetic is exact. *)
From Verif Require Import Base.

Record rops (F : Type) := ROps { r0 : F; r1 : F; radd : F -> F -> F; rmul : F -> F -> F;
  rsub : F -> F -> F; ropp : F -> F; rdiv : F -> F -> F }.
Arguments r0 {F}. Arguments r1 {F}. Arguments radd {F}. Arguments rmul {F}.
Arguments rsub {F}. Arguments ropp {F}. Arguments rdiv {F}. Arguments ROps {F}.

(** A scalar, a vector of length [n], a matrix of [r] rows and [c] columns.  The
    functions matter only below the bounds. *)
Inductive nd (F : Type) := S0 (x : F) | V1 (n : nat) (f : nat -> F) | M2 (r c : nat) (f : nat -> nat -> F).
Arguments S0 {F}. Arguments V1 {F}. Arguments M2 {F}.

Section Nd.
  Variable F : Type.
  Variable O : rops F.

  (** [range n] summed from the left. *)
  Fixpoint rsum (n : nat) (f : nat -> F) : F :=
    match n with 0 => r0 O | S n' => radd O (rsum n' f) (f n') end.

  Definition shape (a : nd F) : list nat := match a with S0 _ => [] | V1 n _ => [n] | M2 r c _ => [r; c] end.
  Definition nsize (a : nd F) : nat := match a with S0 _ => 1 | V1 n _ => n | M2 r c _ => r * c end.

  (** [a.squeeze()] *)
  Definition squeeze (a : nd F) : nd F :=
    match a with
    | S0 x => S0 x
    | V1 n f => if n =? 1 then S0 (f 0) else a
    | M2 r c f =>
        if r =? 1 then (if c =? 1 then S0 (f 0 0) else V1 c (f 0))
        else if c =? 1 then V1 r (fun i => f i 0) else a
    end.

  (** [np.transpose] *)
  Definition ntrans (a : nd F) : nd F :=
    match a with M2 r c f => M2 c r (fun i j => f j i) | _ => a end.

  (** [a.item()] *)
  Definition item (a : nd F) : res F :=
    match a with
    | S0 x => Ok x
    | V1 n f => if n =? 1 then Ok (f 0) else Err ValueErr
    | M2 r c f => if (r =? 1) && (c =? 1) then Ok (f 0 0) else Err ValueErr
    end.

  Definition nmap (h : F -> F) (a : nd F) : nd F :=
    match a with S0 x => S0 (h x) | V1 n f => V1 n (fun i => h (f i)) | M2 r c f => M2 r c (fun i j => h (f i j)) end.

  (** Broadcasting: an axis of length one is repeated, missing axes come first. *)
  Definition axis (n m : nat) : option nat :=
    if n =? m then Some n else if n =? 1 then Some m else if m =? 1 then Some n else None.
  Definition at_ (n i : nat) : nat := if n =? 1 then 0 else i.
  Definition rows (a : nd F) : nat := match a with M2 r _ _ => r | _ => 1 end.
  Definition cols (a : nd F) : nat := match a with S0 _ => 1 | V1 n _ => n | M2 _ c _ => c end.
  Definition entry (a : nd F) (i j : nat) : F :=
    match a with S0 x => x | V1 n f => f (at_ n j) | M2 r c f => f (at_ r i) (at_ c j) end.
  Definition elementwise (h : F -> F -> F) (a b : nd F) : res (nd F) :=
    match a, b with
    | S0 x, _ => Ok (nmap (h x) b)
    | _, S0 y => Ok (nmap (fun x => h x y) a)
    | V1 n f, V1 m g =>
        match axis n m with
        | Some k => Ok (V1 k (fun i => h (f (at_ n i)) (g (at_ m i))))
        | None => Err ValueErr
        end
    | _, _ =>
        match axis (rows a) (rows b), axis (cols a) (cols b) with
        | Some r, Some c => Ok (M2 r c (fun i j => h (entry a i j) (entry b i j)))
        | _, _ => Err ValueErr
        end
    end.
  Definition nadd := elementwise (radd O).
  Definition nsub := elementwise (rsub O).
  Definition nmul := elementwise (rmul O).
  Definition nneg := nmap (ropp O).
  (** [a / 2] and the like *)
  Definition nscale_div (a : nd F) (x : F) : nd F := nmap (fun y => rdiv O y x) a.

  (** [np.matmul] *)
  Definition nmatmul (a b : nd F) : res (nd F) :=
    match a, b with
    | S0 _, _ | _, S0 _ => Err ValueErr
    | V1 n f, V1 m g => if n =? m then Ok (S0 (rsum n (fun k => rmul O (f k) (g k)))) else Err ValueErr
    | V1 n f, M2 r c g => if n =? r then Ok (V1 c (fun j => rsum n (fun k => rmul O (f k) (g k j)))) else Err ValueErr
    | M2 r c f, V1 n g => if c =? n then Ok (V1 r (fun i => rsum n (fun k => rmul O (f i k) (g k)))) else Err ValueErr
    | M2 r c f, M2 r' c' g =>
        if c =? r' then Ok (M2 r c' (fun i j => rsum c (fun k => rmul O (f i k) (g k j)))) else Err ValueErr
    end.
  (** [np.dot]: as [matmul], and a product with a scalar is allowed. *)
  Definition ndot (a b : nd F) : res (nd F) :=
    match a, b with S0 _, _ | _, S0 _ => nmul a b | _, _ => nmatmul a b end.

  (** [np.kron], [np.outer] *)
  Definition flat (a : nd F) (i : nat) : F :=
    match a with S0 x => x | V1 _ f => f i | M2 _ c f => f (i / c) (i mod c) end.
  Definition nouter (a b : nd F) : nd F := M2 (nsize a) (nsize b) (fun i j => rmul O (flat a i) (flat b j)).
  Definition row_of (a : nd F) : nat -> nat -> F :=
    match a with S0 x => fun _ _ => x | V1 _ f => fun _ j => f j | M2 _ _ f => f end.
  Definition nkron (a b : nd F) : nd F :=
    match a, b with
    | S0 x, _ => nmap (rmul O x) b
    | _, S0 y => nmap (fun x => rmul O x y) a
    | V1 n f, V1 m g => V1 (n * m) (fun i => rmul O (f (i / m)) (g (i mod m)))
    | _, _ =>
        M2 (rows a * rows b) (cols a * cols b) (fun i j =>
          rmul O (row_of a (i / rows b) (j / cols b)) (row_of b (i mod rows b) (j mod cols b)))
    end.

  (** ** utils/numpy.py *)

  (** utils/numpy.py:29-64 [matmul_scalar] *)
  Definition matmul_scalar (a b : nd F) : res (nd F) :=
    match item a, item b with
    | Ok x, Ok y => Ok (S0 (rmul O x y))
    | Ok x, Err _ => Ok (nmap (rmul O x) b)
    | Err _, Ok y => Ok (nmap (fun x => rmul O x y) a)
    | Err _, Err _ => nmatmul a b
    end.

  (** utils/numpy.py:97-118 [ensure_2darray], column orientation, on an array *)
  Definition ensure2 (a : nd F) : nd F :=
    match a with S0 x => M2 1 1 (fun _ _ => x) | V1 n f => M2 n 1 (fun i _ => f i) | M2 _ _ _ => a end.

  (** utils/numpy.py:348-359 [array_shingle] on matrices.  An [overlap] larger than the
      sum of the heights makes a negative dimension. *)
  Definition array_shingle (a0 a1 : nd F) (overlap : Z) : res (nd F) :=
    match a0, a1 with
    | M2 n0 c0 f, M2 n1 c1 g =>
        if negb (c0 =? c1) then Err ValueErr else
        let h := (Z.of_nat n0 + Z.of_nat n1 - overlap)%Z in
        if (h <? 0)%Z then Err ValueErr else
        let h := Z.to_nat h in
        (* a1[overlap:] : the start counts from the end when negative, and is clamped *)
        let start := if (overlap <? 0)%Z then Z.to_nat (Z.max 0 (Z.of_nat n1 + overlap))
                     else Z.to_nat (Z.min overlap (Z.of_nat n1)) in
        let tail := n1 - start in
        (* shingle[:n0] = a0 : as many rows as there are, or one row for all *)
        let top := Nat.min n0 h in
        if negb ((n0 =? top) || (n0 =? 1)) then Err ValueErr else
        (* shingle[n0:] = a1[overlap:] *)
        let low := h - top in
        if negb ((tail =? low) || (tail =? 1)) then Err ValueErr else
        Ok (M2 h c0 (fun i j => if i <? top then f (at_ n0 i) j else g (start + at_ tail (i - top)) j))
    | _, _ => Err TypeErr
    end.

  (** utils/numpy.py:384-392 [matrix_kronecker_product] *)
  Definition matrix_kron (A B : nd F) (C : option (nd F)) : res (nd F) :=
    let K := nkron B (match C with None => B | Some C => C end) in
    match shape A with
    | _ :: ca :: _ =>
        if ca =? 1 then
          match shape K with
          | rk :: _ => if rk =? 1 then Ok (nouter A K) else nmatmul A K
          | [] => Err IndexErr
          end
        else nmatmul A K
    | _ => Err IndexErr
    end.
End Nd.
