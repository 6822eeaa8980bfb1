(** What an occasionally-binding simulation should be. *)
From Verif Require Import Base Nd Mat Indexing SimSpec Occbin.

(** The regime that spells (first period, regime), in order, give to a period. *)
Definition regime_at (spells : list (nat * bool)) (t : nat) : bool :=
  fold_left (fun r s => if fst s <=? t then snd s else r) spells false.
(** Spells begin one after the other, and each is another regime than the one before. *)
Definition alternate (spells : list (nat * bool)) : Prop :=
  forall k, S k < List.length spells ->
    fst (nth k spells (0, false)) < fst (nth (S k) spells (0, false)) /\
    snd (nth (S k) spells (0, false)) = negb (snd (nth k spells (0, false))).
(** The last of the first [p] periods belongs to a spell that begins at [s]. *)
Definition final_spell (hypo : list bool) (p s : nat) : Prop :=
  s < p /\ (forall t, s <= t < p -> nth t hypo false = nth s hypo false) /\
  (0 < s -> nth (s - 1) hypo false = negb (nth s hypo false)).

Section OccbinSpec.
  Variable F : Type.
  Variable O : rops F.
  Local Notation "x + y" := (radd O x y).
  Local Notation "x * y" := (rmul O x y).
  Local Notation Sum := (Sum F O).

  (** The [n] equations of a linear system, with [k] shocks, at values of three periods. *)
  Definition equations (n k : nat) (q : system F) (before now after shocks : nat -> F) : Prop :=
    forall i, i < n ->
      Sum n (fun j => sA F q i j * after j) + Sum n (fun j => sB F q i j * now j) + Sum n (fun j => sC F q i j * before j)
      + Sum k (fun j => sE F q i j * shocks j) + sD F q i = r0 O.

  (** A decision rule x(t) = gy x(t-1) + gu e(t) solves the system: A gy gy + B gy + C = 0,
      (A gy + B) gu + E = 0, and there is no constant. *)
  Definition solves (n k : nat) (q : system F) (gy gu : nat -> nat -> F) : Prop :=
    (forall i j, i < n -> j < n ->
       Sum n (fun l => sA F q i l * Sum n (fun m => gy l m * gy m j)) + Sum n (fun l => sB F q i l * gy l j) + sC F q i j = r0 O) /\
    (forall i j, i < n -> j < k ->
       Sum n (fun l => (Sum n (fun m => sA F q i m * gy m l) + sB F q i l) * gu l j) + sE F q i j = r0 O) /\
    (forall i, i < n -> sD F q i = r0 O).

  (** What is asked of the routine that inverts matrices. *)
  Definition inverts (n : nat) (inv : nat -> (nat -> nat -> F) -> res (nat -> nat -> F)) : Prop :=
    forall m m', inv n m = Ok m' -> forall i j, i < n -> j < n -> Sum n (fun l => m i l * m' l j) = if i =? j then r1 O else r0 O.

  (** Values over time: the initial ones, then the rows of a path. *)
  Definition value (init : nat -> F) (rows : list (nat -> F)) (t : nat) : nat -> F :=
    match t with 0 => init | S t' => nth t' rows init end.
  (** The shock arrives in the first period. *)
  Definition impulse (e : nat -> F) (t : nat) : nat -> F := match t with 0 => e | _ => fun _ => r0 O end.

  (** A hypothesis agrees with the evaluated conditions: where the constraint is violated
      the alternative regime is assumed, and where that is assumed it need not be left. *)
  Definition consistent (hypo : list bool) (cs : list (bool * bool)) : Prop :=
    List.length cs = List.length hypo /\
    forall t, t < List.length hypo ->
      (fst (nth t cs (false, false)) = true -> nth t hypo false = true) /\
      (nth t hypo false = true -> snd (nth t cs (false, false)) = false).

  (** The coefficient of a variable at a period (-1, 0 or 1): the entry of the Jacobian in
      the column that the index gives to it, zero if it does not appear. *)
  Definition coefficient (x : indexes) (J : nat -> nat -> F) (row : indexes -> list (option nat)) (i v : nat) : F :=
    match nth v (row x) None with Some c => J i c | None => r0 O end.
  (** The innovations when the shocks at the given positions have the given values: a
      position that is given twice has the last value, and all others have none. *)
  Definition shock_vector (positions : list nat) (values : list F) (e : nat -> F) : Prop :=
    (forall a, a < List.length positions -> ~ In (nth a positions 0) (skipn (S a) positions) -> e (nth a positions 0) = nth a values (r0 O)) /\
    (forall j, ~ In j positions -> e j = r0 O).
End OccbinSpec.
