(** Matrices as functions of row and column; their sizes are given where they are used.
    This is the exact arithmetic behind the calls of numpy's [matmul], [transpose],
    [hstack] and so on; no code of /repo is modelled here. *)
From Verif Require Import Base Nd.

Definition mat (F : Type) := nat -> nat -> F.
Definition vec (F : Type) := nat -> F.

Section Mat.
  Variable F : Type.
  Variable O : rops F.

  Definition madd (a b : mat F) : mat F := fun i j => radd O (a i j) (b i j).
  Definition msub (a b : mat F) : mat F := fun i j => rsub O (a i j) (b i j).
  Definition mopp (a : mat F) : mat F := fun i j => ropp O (a i j).
  Definition mscale (x : F) (a : mat F) : mat F := fun i j => rmul O x (a i j).
  (** The product of matrices whose common size is [c]. *)
  Definition mmul (c : nat) (a b : mat F) : mat F := fun i j => rsum F O c (fun k => rmul O (a i k) (b k j)).
  Definition mid : mat F := fun i j => if i =? j then r1 O else r0 O.
  Definition mzero : mat F := fun _ _ => r0 O.
  Definition mtr (a : mat F) : mat F := fun i j => a j i.
  (** Side by side, on top of each other; [c] columns and [r] rows in the first. *)
  Definition hcat (c : nat) (a b : mat F) : mat F := fun i j => if j <? c then a i j else b i (j - c).
  Definition vcat (r : nat) (a b : mat F) : mat F := fun i j => if i <? r then a i j else b (i - r) j.
  (** The block that begins at a row and a column. *)
  Definition sub (r c : nat) (a : mat F) : mat F := fun i j => a (r + i) (c + j).

  Definition vadd (a b : vec F) : vec F := fun i => radd O (a i) (b i).
  Definition vopp (a : vec F) : vec F := fun i => ropp O (a i).
  Definition vzero : vec F := fun _ => r0 O.
  Definition mvec (c : nat) (a : mat F) (v : vec F) : vec F := fun i => rsum F O c (fun k => rmul O (a i k) (v k)).
  Definition col (v : vec F) : mat F := fun i _ => v i.

  (** Equality of matrices of [r] rows and [c] columns, and of vectors. *)
  Definition meq (r c : nat) (a b : mat F) : Prop := forall i j, i < r -> j < c -> a i j = b i j.
  Definition veq (n : nat) (a b : vec F) : Prop := forall i, i < n -> a i = b i.
End Mat.
