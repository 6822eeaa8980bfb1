(** Sorted eigenvalues: pynare/utils/numpy.py:163-200. *)
From Verif Require Import Base.
From Coq Require Import ZArith.
Local Open Scope string_scope.
Local Open Scope list_scope.

Section Eigs.
  (** Matrices, eigenvalues and their magnitudes. *)
  Variable M V F : Type.
  (** [np.linalg.eigvals], [np.absolute] of one entry and [np.argsort]. *)
  Variable eigvals : M -> res (list V).
  Variable absolute : V -> F.
  Variable argsort : list F -> list nat.

  (** Indexing an array by one integer. *)
  Definition at_index (l : list V) (i : nat) : res V := match nth_error l i with Some v => Ok v | None => Err IndexErr end.
  (** The python slice [l[:k]]. *)
  Definition upto (k : Z) (l : list V) : list V := firstn (Z.to_nat (if (k <? 0)%Z then Z.of_nat (List.length l) + k else k)%Z) l.
  (** utils/numpy.py:186-200 [eigvals_sorted]. *)
  Definition eigvals_sorted (A : M) (order : string) (k : option Z) : res (list V) :=
    if negb (String.eqb order "descending" || String.eqb order "ascending") then Err ValueErr else
    do eigs <- eigvals A;
    let mag_order := argsort (map absolute eigs) in
    do sorted_eigs <- mapM (at_index eigs) (if String.eqb order "descending" then rev mag_order else mag_order);
    Ok (match k with None => sorted_eigs | Some k => upto k sorted_eigs end).
End Eigs.
