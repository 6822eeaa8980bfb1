(** What is expected of variance decompositions and of means after a history. *)
From Verif Require Import Base Nd SimSpec SylvesterSpec FirstOrderSpec PipelineSpec MomentsSpec StatsState.

Section Shares.
  Variable F : Type.
  Variable O : rops F.
  Variable le : F -> F -> Prop.

  (** The shares of the shocks in the variances of the variables, for a rule [g] and shocks with
      the covariance matrix [Sg] (with the perturbation [nudged] of C46).  For each variable that
      varies they are not negative and add up to one; the share of an orthogonal shock, one of
      the columns of the triangular factor of the matrix, is the variance that it causes alone,
      divided by the whole; and if the shocks are not correlated then the share of a shock of
      the model is the variance that it causes alone, divided by the whole. *)
  Definition decomposes (g : rule F) (Sg : nat -> nat -> F) (a : answer F) : Prop :=
    exists L h, a = Array (M2 (rn g) (rk g) h) /\
      (forall i j, i < rk g -> j < rk g -> nudged F O Sg i j = Sum F O (rk g) (fun c => rmul O (L i c) (L j c))) /\
      (forall i j, i < rk g -> j < rk g -> i < j -> L i j = r0 O) /\
      forall (R : randoms F) y u, lawful F O R -> follows F O R g (nudged F O Sg) y u -> stationary F R g y ->
      forall v, v < rn g -> covariance R (y 0 v) (y 0 v) <> r0 O ->
      Sum F O (rk g) (h v) = r1 O /\ (forall i, i < rk g -> le (r0 O) (h v i)) /\
      (forall (Rs : nat -> randoms F) ys us,
       (forall i, i < rk g -> lawful F O (Rs i) /\ MomentsSpec.positive F O le (Rs i) /\
          follows F O (Rs i) g (by_column F O L i) (ys i) (us i) /\ stationary F (Rs i) g (ys i)) ->
       forall i, i < rk g -> h v i = rdiv O (covariance (Rs i) (ys i 0 v) (ys i 0 v)) (covariance R (y 0 v) (y 0 v))) /\
      ((forall i j, i < rk g -> j < rk g -> i <> j -> Sg i j = r0 O) -> (forall i, i < rk g -> le (r0 O) (Sg i i)) ->
       forall (Rs : nat -> randoms F) ys us,
       (forall i, i < rk g -> lawful F O (Rs i) /\ MomentsSpec.positive F O le (Rs i) /\
          follows F O (Rs i) g (alone F O Sg i) (ys i) (us i) /\ stationary F (Rs i) g (ys i)) ->
       forall i, i < rk g -> h v i = rdiv O (covariance (Rs i) (ys i 0 v) (ys i 0 v)) (covariance R (y 0 v) (y 0 v))).
  (** With one shock its shares are one. *)
  Definition all_ones (n : nat) (a : answer F) : Prop := exists h, a = Array (M2 n 1 h) /\ forall v, v < n -> h v 0 = r1 O.

  (** The values of the variables, in their order. *)
  Definition lists (l : list F) (a : answer F) : Prop :=
    exists h, a = Array (V1 (List.length l) h) /\ forall i, i < List.length l -> h i = nth i l (r0 O).
End Shares.
