(** What the first-order solution of a model should be. *)
From Verif Require Import Base Nd Mat IndexingSpec SimSpec FirstOrder.

Section FirstOrderSpec.
  Variable F : Type.
  Variable O : rops F.
  Local Notation "x + y" := (radd O x y).
  Local Notation "x * y" := (rmul O x y).
  Local Notation Sum := (Sum F O).
  Local Notation unit i j := (if i =? j then r1 O else r0 O).

  (** ** The linearised model *)

  (** The value of a variable at an offset, from the values of three periods. *)
  Definition dated (lag now next : nat -> F) (p : nat * Z) : F :=
    if (snd p =? -1)%Z then lag (fst p) else if (snd p =? 0)%Z then now (fst p) else next (fst p).
  (** Equation [i] of the linearised model: [lls] are the offsets of each variable, and the
      Jacobian [J] has a column for each timed variable and then one for each of [k] shocks. *)
  Definition linear_equation (lls : list (list Z)) (k : nat) (J : nat -> nat -> F) (lag now next shocks : nat -> F) (i : nat) : Prop :=
    Sum (List.length (timed_vars lls)) (fun c => J i c * dated lag now next (nth c (timed_vars lls) (0%nat, 0%Z))) +
    Sum k (fun l => J i (List.length (timed_vars lls) + l)%nat * shocks l) = r0 O.
  (** What the decision rule says of the period after values [before] and shocks [u]. *)
  Definition decides (g : rule F) (before u after : nat -> F) : Prop :=
    forall i, i < rn g -> after (var_at g i) =
      Sum (rs g) (fun j => ry g i j * before (state_at g j)) + Sum (rk g) (fun l => ru g i l * u l).
  (** The rule solves the model: whatever happened before and whatever the shocks, if today
      follows the rule and tomorrow is expected to follow it without further shocks, then
      every equation holds. *)
  Definition solves_model (lls : list (list Z)) (J : nat -> nat -> F) (g : rule F) : Prop :=
    forall lag now next u, decides g lag u now -> decides g now (fun _ => r0 O) next ->
    forall i, i < List.length lls -> linear_equation lls (rk g) J lag now next u i.
  (** The rule is about the variables in this order: static ones, predetermined ones, those
      with both a lag and a lead, and those with a lead only.  The states are the second
      and third group. *)
  Definition about (lls : list (list Z)) (g : rule F) : Prop :=
    rn g = List.length lls /\
    rorder g = members_of lls (static lls) ++ members_of lls (pure_backward lls) ++
                 members_of lls (mixed lls) ++ members_of lls (pure_forward lls) /\
    rstate g = seq (List.length (members_of lls (static lls))) (List.length (members_of lls (backward lls))) /\
    rs g = List.length (members_of lls (backward lls)).

  (** ** What numpy and scipy promise *)

  Definition orthogonal (n : nat) (Q : nat -> nat -> F) : Prop :=
    (forall i j, i < n -> j < n -> Sum n (fun k => Q k i * Q k j) = unit i j) /\
    (forall i j, i < n -> j < n -> Sum n (fun k => Q i k * Q j k) = unit i j).
  Definition inverse_routine (inv : nat -> (nat -> nat -> F) -> res (nat -> nat -> F)) : Prop :=
    forall n A B, inv n A = Ok B -> forall i j, i < n -> j < n ->
      Sum n (fun k => A i k * B k j) = unit i j /\ Sum n (fun k => B i k * A k j) = unit i j.
  Definition linear_routine (solve : nat -> nat -> (nat -> nat -> F) -> (nat -> nat -> F) -> res (nat -> nat -> F)) : Prop :=
    forall n k A B X, solve n k A B = Ok X -> forall i j, i < n -> j < k -> Sum n (fun l => A i l * X l j) = B i j.
  (** The complete QR factorisation of a matrix of [n] rows and [s] columns. *)
  Definition qr_routine (qr : nat -> nat -> (nat -> nat -> F) -> res ((nat -> nat -> F) * (nat -> nat -> F))) : Prop :=
    forall n s A Q R, qr n s A = Ok (Q, R) ->
      orthogonal n Q /\
      (forall i j, i < n -> j < s -> Sum n (fun k => Q i k * R k j) = A i j) /\
      (forall i j, i < n -> j < s -> j < i -> R i j = r0 O).

  (** Sizes of roots; [le] is the order of the numbers. *)
  Variable le : F -> F -> Prop.
  Definition inside_circle (e : cnum F) : Prop :=
    match e with Fin re im => ~ le (r1 O) (re * re + im * im) | _ => False end.
  Definition outside_circle (e : cnum F) : Prop :=
    match e with Fin re im => ~ le (re * re + im * im) (r1 O) | Inf => True | Nan => False end.

  (** A root that the cut looks for: real part above one, or one with a positive imaginary
      part, or infinite. *)
  Definition beyond_one (e : cnum F) : Prop :=
    match e with Fin re im => ~ le re (r1 O) \/ re = r1 O /\ ~ le im (r0 O) | Inf => True | Nan => False end.
  Definition not_complex (e : cnum F) : Prop := match e with Fin _ im => im = r0 O | _ => True end.

  (** The first [k] roots are inside the unit circle and all others outside. *)
  Definition separated (eig : list (cnum F)) (k : nat) : Prop :=
    k <= List.length eig /\ (forall i, i < k -> inside_circle (nth i eig Nan)) /\
    (forall i, k <= i < List.length eig -> outside_circle (nth i eig Nan)).
  (** The first root beyond one is behind [k] others; or none is beyond one, and the last root
      is behind [k] others. *)
  Definition cut_after (eig : list (cnum F)) (k : nat) : Prop :=
    (k < List.length eig /\ beyond_one (nth k eig Nan) /\ forall i, i < k -> ~ beyond_one (nth i eig Nan)) \/
    ((forall e, In e eig -> ~ beyond_one e) /\ S k = List.length eig).
  (** A real number that is not negative, or infinite. *)
  Definition not_negative (e : cnum F) : Prop := match e with Fin re im => im = r0 O /\ le (r0 O) re | Inf => True | Nan => False end.

  (** The roots of the pencil [S] - root [T]: a diagonal block of one row has the quotient
      of its entries (infinite when [T] has a zero there, and 0/0 is not a number); one of
      two rows has a pair of conjugate complex numbers, first the one with positive
      imaginary part. *)
  Definition root_of (s t : F) (e : cnum F) : Prop :=
    match e with
    | Fin re im => im = r0 O /\ t * re = s
    | Inf => t = r0 O /\ s <> r0 O
    | Nan => t = r0 O /\ s = r0 O
    end.
  Definition pair_of (S T : nat -> nat -> F) (j : nat) (e e' : cnum F) : Prop :=
    exists re im, e = Fin re im /\ e' = Fin re (ropp O im) /\ ~ le im (r0 O) /\
      let d := T j j * T (Datatypes.S j) (Datatypes.S j) in
      (re + re) * d + S (Datatypes.S j) j * T j (Datatypes.S j) = S j j * T (Datatypes.S j) (Datatypes.S j) + S (Datatypes.S j) (Datatypes.S j) * T j j /\
      (re * re + im * im) * d + S j (Datatypes.S j) * S (Datatypes.S j) j = S j j * S (Datatypes.S j) (Datatypes.S j).

  (** The ordered QZ factorisation of two matrices of [n] rows: A = Q S Z', B = Q T Z', [T]
      triangular, [S] triangular but for blocks of two rows, and the roots inside the unit
      circle before all others. *)
  Record schur_form (n : nat) (A B : nat -> nat -> F) (q : schur F) : Prop := SchurForm {
    f_Q : orthogonal n (q_Q q);
    f_Z : orthogonal n (q_Z q);
    f_A : forall i j, i < n -> j < n -> Sum n (fun k => Sum n (fun l => q_Q q i k * q_S q k l * q_Z q j l)) = A i j;
    f_B : forall i j, i < n -> j < n -> Sum n (fun k => Sum n (fun l => q_Q q i k * q_T q k l * q_Z q j l)) = B i j;
    f_T : forall i j, i < n -> j < i -> q_T q i j = r0 O;
    f_S : forall i j, i < n -> Datatypes.S j < i -> q_S q i j = r0 O;
    f_len : List.length (q_eig q) = n;
    f_one : forall j, j < n -> (Datatypes.S j < n -> q_S q (Datatypes.S j) j = r0 O) -> (forall i, j = Datatypes.S i -> q_S q j i = r0 O) ->
      root_of (q_S q j j) (q_T q j j) (nth j (q_eig q) Nan);
    f_two : forall j, Datatypes.S j < n -> q_S q (Datatypes.S j) j <> r0 O ->
      pair_of (q_S q) (q_T q) j (nth j (q_eig q) Nan) (nth (Datatypes.S j) (q_eig q) Nan);
    f_ordered : exists k, k <= n /\ (forall i, i < k -> inside_circle (nth i (q_eig q) Nan)) /\
      (forall i, k <= i < n -> ~ inside_circle (nth i (q_eig q) Nan)) }.
  Definition schur_routine (ordqz : nat -> (nat -> nat -> F) -> (nat -> nat -> F) -> res (schur F)) : Prop :=
    forall n A B q, ordqz n A B = Ok q -> schur_form n A B q.
End FirstOrderSpec.
