(** Choice of the steady-state solver: property C53. *)
From Verif Require Import Base Steady.

(** The arguments with a documented meaning: nothing, dynare's numbers, a name. *)
Inductive documented : method -> Prop :=
| doc_none : documented (Other (Ok false))
| doc_empty : documented (Text "")
| doc_number n : (0 <= n <= 11)%Z -> documented (Number (Ok n))
| doc_name : documented (Text "nelder-mead").

(** The full claim is false: most documented numbers are only descriptions, and the first
    is a function that refuses. *)
Theorem C53_refuted :
  ~ (forall m, documented m -> exists s, compute "dynare" m = Ok s) /\
  (forall n, (1 <= n <= 11)%Z -> n <> 8%Z -> compute "dynare" (Number (Ok n)) = Err TypeErr) /\
  compute "dynare" (Number (Ok 0%Z)) = Err NotImplErr.
Proof.
  split; [|split; [|reflexivity]].
  - intros H; destruct (H (Number (Ok 4%Z)) (doc_number 4 ltac:(lia))) as (s & E); discriminate.
  - intros n H1 H2.
    assert (X : (n = 1 \/ n = 2 \/ n = 3 \/ n = 4 \/ n = 5 \/ n = 6 \/ n = 7 \/ n = 9 \/ n = 10 \/ n = 11)%Z) by lia.
    repeat (destruct X as [->|X]; [reflexivity|]); subst n; reflexivity.
Qed.
Print Assumptions C53_refuted.

Lemma mappings_function n s : dynare_mappings n = Some (Function s) <-> (n = 0%Z /\ s = Dogleg) \/ (n = 8%Z /\ s = ConjugateGradient).
Proof.
  split; [|intros [(-> & ->)|(-> & ->)]; reflexivity].
  destruct (Z_lt_le_dec n 0) as [L|L]; [destruct n; cbn; discriminate || lia|].
  destruct (Z_lt_le_dec 11 n) as [U|U].
  - assert (dynare_mappings n = None) as ->; [|discriminate].
    destruct n as [|p|p]; try lia; cbn; do 4 (destruct p; try reflexivity; try lia).
  - assert (X : (n = 0 \/ n = 1 \/ n = 2 \/ n = 3 \/ n = 4 \/ n = 5 \/ n = 6 \/ n = 7 \/ n = 8 \/ n = 9 \/ n = 10 \/ n = 11)%Z) by lia.
    repeat (destruct X as [->|X]; [cbn; intros H; try discriminate; injection H as <-; auto|]); subst n; cbn; discriminate.
Qed.
Lemma mappings_none n : dynare_mappings n = None <-> (n < 0 \/ 11 < n)%Z.
Proof.
  split.
  - intros H; assert (X : (n < 0 \/ 11 < n \/ n = 0 \/ n = 1 \/ n = 2 \/ n = 3 \/ n = 4 \/ n = 5 \/ n = 6 \/ n = 7 \/ n = 8 \/ n = 9 \/ n = 10 \/ n = 11)%Z) by lia.
    destruct X as [X|[X|X]]; [auto..|].
    repeat (destruct X as [->|X]; [discriminate|]); subst n; discriminate.
  - intros [H|H]; destruct n as [|p|p]; try lia; cbn; [reflexivity|]; do 4 (destruct p; try reflexivity; try lia).
Qed.

(** Exactly which arguments make an optimiser run, and which one: the conjugate gradient
    for nothing, the empty text, a false object or a number with whole part eight, and
    Nelder-Mead for its name; only for models written for dynare. *)
Theorem C53_runs_partial :
  forall language m s,
  compute language m = Ok s <->
  language = "dynare"%string /\
  ((s = ConjugateGradient /\ (m = Text "" \/ m = Other (Ok false) \/ m = Number (Ok 8%Z))) \/
   (s = NelderMead /\ m = Text "nelder-mead")).
Proof.
  intros language m s; unfold compute, manager, manager_try.
  destruct (String.eqb_spec language "dynare") as [->|N].
  2: { split; [intros H; discriminate|intros (H & _); contradiction]. }
  split.
  - intros H; split; [reflexivity|]; destruct m as [t|n|t].
    + destruct (String.eqb_spec t "") as [->|N1]; cbn in H; [injection H as <-; left; auto|].
      destruct (String.eqb_spec t "nelder-mead") as [->|N2]; cbn in H; [injection H as <-; right; auto|discriminate].
    + destruct n as [n|e]; cbn [bind] in H; [|destruct e; discriminate].
      destruct (dynare_mappings n) as [[f|d]|] eqn:E; cbn [bind] in H; try discriminate.
      apply mappings_function in E as [(-> & ->)|(-> & ->)]; [discriminate|injection H as <-; left; auto].
    + destruct t as [[|]|e]; cbn [bind] in H; [discriminate|cbn in H; injection H as <-; left; auto|destruct e; discriminate].
  - intros (_ & [(-> & [-> | [-> | ->]])|(-> & ->)]); reflexivity.
Qed.
Print Assumptions C53_runs_partial.

(** Every other argument is an error, of these kinds. *)
Theorem C53_errors :
  (forall t, t <> ""%string -> t <> "nelder-mead"%string -> compute "dynare" (Text t) = Err KeyErr) /\
  (forall n, (n < 0 \/ 11 < n)%Z -> compute "dynare" (Number (Ok n)) = Err KeyErr) /\
  (compute "dynare" (Other (Ok true)) = Err UnboundErr) /\
  (forall language m, language <> "dynare"%string -> compute language m = Err TypeErr).
Proof.
  split; [|split; [|split; [reflexivity|]]].
  - intros t N1 N2; unfold compute, manager, manager_try; cbn [String.eqb Ascii.eqb Bool.eqb].
    destruct (String.eqb_spec t "") as [|_]; [contradiction|]; cbn [bind nonlang_mappings].
    destruct (String.eqb_spec t "nelder-mead") as [|_]; [contradiction|reflexivity].
  - intros n H; apply mappings_none in H; unfold compute, manager, manager_try; cbn [String.eqb Ascii.eqb Bool.eqb bind]; rewrite H; reflexivity.
  - intros language m N; unfold compute, manager, manager_try; destruct (String.eqb_spec language "dynare"); [contradiction|reflexivity].
Qed.
Print Assumptions C53_errors.

Example C53_nonvacuous :
  documented (Number (Ok 8%Z)) /\ compute "dynare" (Number (Ok 8%Z)) = Ok ConjugateGradient /\
  compute "dynare" (Text "nelder-mead") = Ok NelderMead /\ compute "dynare" (Text "cg") = Err KeyErr.
Proof. repeat split; constructor; lia. Qed.
