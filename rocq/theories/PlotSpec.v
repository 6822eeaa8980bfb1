(** What a figure of several series should show. *)
From Verif Require Import Base Plot.
From Coq Require Export Permutation.

Definition cells (ds : list draw) : list cell := map (fun d => fst (fst d)) ds.
Definition series (d : draw) : list nat := snd (fst d).
Definition legend (d : draw) : list string := snd d.

(** The cell is one of a figure of [r] rows and [c] columns. *)
Definition in_figure (r c : nat) (x : cell) : Prop :=
  match x with Whole => r = 1 /\ c = 1 | At1 i => (r = 1 \/ c = 1) /\ i < r * c | At2 i j => i < r /\ j < c end.

(** Each of [n] series is drawn once, in one cell, under its own label; no cell is drawn
    twice. *)
Definition each_once (n : nat) (labels : list string) (ds : list draw) : Prop :=
  NoDup (cells ds) /\ Permutation (concat (map series ds)) (seq 0 n) /\
  forall d, In d ds -> legend d = map (fun i => nth i labels EmptyString) (series d).
