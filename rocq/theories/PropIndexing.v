(** Lead-lag structure and Jacobian columns: properties C23-C26. *)
From Verif Require Import Base Syntax Lexer Parser Eval EvalSpec EvalProofs ModFileSpec Semantics SemanticsSpec SemanticsProofs
  Factory FactorySpec FactoryProofs Indexing IndexingSpec IndexingProofs IndexingProofs2.
From Coq Require Import Permutation.
Open Scope Z_scope.

(** ** C23: the lead-lag set of a variable is exactly the set of offsets at which it
    occurs in the equations. *)
Theorem C23_lead_lags :
  forall (V : Type) (endog : list string) (exprs : list (ast V)),
    Forall (algebraic V) exprs ->
    exists lls, set_lead_lags V endog exprs = Ok lls /\ map fst lls = endog /\
      forall x ps, In (x, ps) lls -> forall k, In k ps <-> exists e, In e exprs /\ at_period V x k e.
Proof.
  intros V endog exprs Ha; destruct (set_total V endog exprs Ha) as (lls & E); exists lls; split; [exact E|].
  destruct (set_spec V endog exprs lls E) as (K & _ & S); split; [exact K|exact S].
Qed.
Print Assumptions C23_lead_lags.

(** An equation with a comparison is refused. *)
Theorem C23_comparison_refused :
  forall (V : Type) (endog : list string) (exprs : list (ast V)),
    ~ Forall (algebraic V) exprs -> exists er, set_lead_lags V endog exprs = Err er.
Proof.
  intros V endog exprs Ha; unfold set_lead_lags; destruct (read_error V endog exprs Ha) as (er & ->); cbn [bind]; eauto.
Qed.
Print Assumptions C23_comparison_refused.

Definition eq1 : ast Z := Bin BSub (Var "c") (Bin BMul (Var "beta") (PVar "c" 1)).
Definition eq2 : ast Z := Bin BSub (Var "k") (Bin BAdd (PVar "k" (-1)) (Fun "exp" (Var "y"))).
Definition eq3 : ast Z := Bin BSub (Var "y") (Bin BMul (PVar "k" (-1)) (Var "e")).
Example C23_nonvacuous :
  Forall (algebraic Z) [eq1; eq2; eq3] /\
  set_lead_lags Z ["c"; "k"; "y"]%string [eq1; eq2; eq3] = Ok [("c", [0; 1]); ("k", [0; -1]); ("y", [0])]%string.
Proof. split; [repeat constructor|vm_compute; reflexivity]. Qed.

(** ** C24: the timed variables are numbered without gaps, lags, current, leads. *)
Theorem C24_columns :
  forall (lls : list (string * list Z)) (n_stoch : nat),
    NoDup (map fst lls) -> in_range (map snd lls) ->
    exists X, index_manager lls n_stoch = Ok X /\
      n_endog_inc X = List.length (timed_vars (map snd lls)) /\
      exogenous_jacobian X = seq (List.length (timed_vars (map snd lls))) n_stoch /\
      (forall i j, nth_error (row_m X) i = Some (Some j) <-> nth_error (timed_vars (map snd lls)) j = Some (i, -1)) /\
      (forall i j, nth_error (row_0 X) i = Some (Some j) <-> nth_error (timed_vars (map snd lls)) j = Some (i, 0)) /\
      (forall i j, nth_error (row_p X) i = Some (Some j) <-> nth_error (timed_vars (map snd lls)) j = Some (i, 1)) /\
      List.length (row_m X) = List.length lls /\ List.length (row_0 X) = List.length lls /\ List.length (row_p X) = List.length lls.
Proof.
  intros lls ns Hn Hr; exists (array (map snd lls) ns); split; [apply index_manager_array; assumption|].
  split; [apply timed_vars_length|]; split; [unfold exogenous_jacobian; rewrite timed_vars_length; reflexivity|].
  assert (L : List.length (map snd lls) = List.length lls) by apply map_length.
  split; [intros i j; exact (array_entry (map snd lls) ns (-1) i j ltac:(lia))|].
  split; [intros i j; exact (array_entry (map snd lls) ns 0 i j ltac:(lia))|].
  split; [intros i j; exact (array_entry (map snd lls) ns 1 i j ltac:(lia))|].
  rewrite <- L; split; [exact (array_length (map snd lls) ns (-1))|split; [exact (array_length (map snd lls) ns 0)|exact (array_length (map snd lls) ns 1)]].
Qed.
Print Assumptions C24_columns.

(** The classes offered to users, with what each one means. *)
Definition class_table : list ((option nat -> option nat -> option nat -> bool) * (list (list Z) -> nat -> bool)) :=
  [(is_state, backward); (is_cont, fun lls i => at_k lls i 0); (is_static, static); (is_dynamic, fun lls i => negb (static lls i));
   (is_forward, forward); (is_pure_forward, pure_forward); (is_backward, backward); (is_pure_backward, pure_backward); (is_mixed, mixed)].
Lemma class_table_meaning cls c : In (cls, c) class_table ->
  exists q, (forall a b d, cls a b d = q (negb (isnan a)) (negb (isnan b)) (negb (isnan d))) /\ forall lls i, c lls i = q (at_k lls i (-1)) (at_k lls i 0) (at_k lls i 1).
Proof.
  unfold class_table; cbn [In]; intros H.
  destruct H as [H|[H|[H|[H|[H|[H|[H|[H|[H|[]]]]]]]]]]; injection H as <- <-.
  1, 7: exists (fun m z p => m).
  3: exists (fun m z p => z).
  4: exists (fun m z p => negb m && negb p).
  5: exists (fun m z p => negb (negb m && negb p)).
  6: exists (fun m z p => p).
  7: exists (fun m z p => negb m && p).
  8: exists (fun m z p => m && negb p).
  9: exists (fun m z p => m && p).
  all: split; [intros [a|] [b|] [d|]; reflexivity|reflexivity].
Qed.

(** Reading a class gives the variables of the class in declaration order; reading it
    at a period gives their columns at that period. *)
Theorem C24_class_columns :
  forall (lls : list (string * list Z)) (n_stoch : nat) X cls c,
    NoDup (map fst lls) -> in_range (map snd lls) -> index_manager lls n_stoch = Ok X -> In (cls, c) class_table ->
    members cls X = members_of (map snd lls) (c (map snd lls)) /\
    forall k, -1 <= k <= 1 -> exists js, timed cls X k = Ok js /\
      Forall2 (fun i j => nth_error (timed_vars (map snd lls)) j = Some (i, k))
        (members_of (map snd lls) (fun i => c (map snd lls) i && at_k (map snd lls) i k)) js.
Proof.
  intros lls ns X cls c Hn Hr HX Hc; rewrite (index_manager_array lls ns Hn Hr) in HX; injection HX as <-.
  destruct (class_table_meaning cls c Hc) as (q & Hq & Hm); unfold members_of; split.
  - rewrite (members_array cls q _ _ Hq); apply filter_ext; intros i; rewrite Hm; reflexivity.
  - intros k Hk; destruct (timed_array cls q (map snd lls) ns k Hk Hq) as (js & E & F); exists js; split; [exact E|].
    assert (G : forall l, filter (fun i => c (map snd lls) i && at_k (map snd lls) i k) l =
      filter (fun i => q (at_k (map snd lls) i (-1)) (at_k (map snd lls) i 0) (at_k (map snd lls) i 1) && at_k (map snd lls) i k) l).
    { intros l; apply filter_ext; intros i; rewrite Hm; reflexivity. }
    rewrite G; exact F.
Qed.
Print Assumptions C24_class_columns.

Definition lls1 : list (string * list Z) := [("c", [0; 1]); ("k", [0; -1]); ("y", [0]); ("z", [-1; 0; 1])]%string.
Example C24_nonvacuous :
  NoDup (map fst lls1) /\ in_range (map snd lls1) /\
  timed_vars (map snd lls1) = [(1%nat, -1); (3%nat, -1); (0%nat, 0); (1%nat, 0); (2%nat, 0); (3%nat, 0); (0%nat, 1); (3%nat, 1)] /\
  exists X, index_manager lls1 2 = Ok X /\ row_p X = [Some 6; None; None; Some 7]%nat /\ timed is_mixed X 1 = Ok [7]%nat.
Proof.
  split; [repeat constructor; cbn [In]; intuition discriminate|]; split.
  { repeat constructor; try discriminate; try lia. }
  split; [reflexivity|]; eexists; split; [vm_compute; reflexivity|]; split; vm_compute; reflexivity.
Qed.

(** ** C25: the decision-rule order.  It is a permutation exactly when every variable
    with a lag and a lead also occurs at the current date; otherwise such a variable is
    listed twice. *)
Theorem C25_permutation_iff :
  forall (lls : list (string * list Z)) (n_stoch : nat) X,
    NoDup (map fst lls) -> in_range (map snd lls) -> index_manager lls n_stoch = Ok X ->
    (Permutation (dr_order X) (seq 0 (List.length lls)) <->
     forall i, (i < List.length lls)%nat -> mixed (map snd lls) i = true -> at_k (map snd lls) i 0 = true).
Proof.
  intros lls ns X Hn Hr HX; rewrite (index_manager_array lls ns Hn Hr) in HX; injection HX as <-.
  rewrite <- (map_length snd lls); apply dr_order_perm_iff.
Qed.
Print Assumptions C25_permutation_iff.

Theorem C25_order_partial :
  forall (lls : list (string * list Z)) (n_stoch : nat) X,
    NoDup (map fst lls) -> in_range (map snd lls) -> index_manager lls n_stoch = Ok X ->
    (forall i, (i < List.length lls)%nat -> mixed (map snd lls) i = true -> at_k (map snd lls) i 0 = true) ->
    let L := map snd lls in
    dr_order X = members_of L (static L) ++ members_of L (pure_backward L) ++ members_of L (mixed L) ++ members_of L (pure_forward L) /\
    Permutation (dr_order X) (seq 0 (List.length lls)) /\
    Permutation (dc_order X) (seq 0 (List.length lls)) /\
    (forall i j, nth_error (dr_order X) i = Some j <-> nth_error (dc_order X) j = Some i).
Proof.
  intros lls ns X Hn Hr HX Hm L; rewrite (index_manager_array lls ns Hn Hr) in HX; injection HX as <-; fold L in Hr |- *.
  assert (Hmo : mixed_occur L) by (intros i Hi; apply (Hm i); unfold L in Hi; rewrite map_length in Hi; exact Hi).
  assert (P : Permutation (dr_order (array L ns)) (seq 0 (List.length L))) by (apply dr_order_perm_iff; exact Hmo).
  assert (LL : List.length L = List.length lls) by apply map_length.
  assert (Ld : List.length (dr_order (array L ns)) = List.length L) by (rewrite (Permutation_length P), seq_length; reflexivity).
  split; [rewrite dr_order_array, (not_fb_pure L Hmo); reflexivity|].
  split; [rewrite <- LL; exact P|]; unfold dc_order.
  destruct (argsort_inverse (dr_order (array L ns)) ltac:(rewrite Ld; exact P)) as [A B]; split; [rewrite <- LL, <- Ld; exact A|exact B].
Qed.
Print Assumptions C25_order_partial.

Example C25_nonvacuous :
  exists X, index_manager lls1 0 = Ok X /\ dr_order X = [2; 1; 3; 0]%nat /\ dc_order X = [3; 1; 0; 2]%nat /\
  forall i, (i < 4)%nat -> mixed (map snd lls1) i = true -> at_k (map snd lls1) i 0 = true.
Proof.
  eexists; split; [vm_compute; reflexivity|]; split; [vm_compute; reflexivity|]; split; [vm_compute; reflexivity|].
  intros i Hi; destruct i as [|[|[|[|i]]]]; cbn; auto; try discriminate; lia.
Qed.

(** The unconditional statement is false: x(+1) = x(-1). *)
Theorem C25_refuted :
  ~ (forall (lls : list (string * list Z)) (n_stoch : nat) X,
       NoDup (map fst lls) -> in_range (map snd lls) -> index_manager lls n_stoch = Ok X ->
       Permutation (dr_order X) (seq 0 (List.length lls))).
Proof.
  intros H; specialize (H [("x", [-1; 1])]%string 0%nat _ ltac:(repeat constructor; intros []) ltac:(repeat constructor; try discriminate; lia) eq_refl).
  apply Permutation_length in H; vm_compute in H; discriminate.
Qed.
Print Assumptions C25_refuted.

(** ** C26: the class counts.  All are exact but the number of static variables (and so
    of dynamic ones): a static variable that has the first column of the Jacobian is
    not counted. *)
Definition first_column_static (L : list (list Z)) : Prop := exists i, nth_error (timed_vars L) 0 = Some (i, 0) /\ static L i = true.
Theorem C26_counts_partial :
  forall (lls : list (string * list Z)) (n_stoch : nat) X,
    NoDup (map fst lls) -> in_range (map snd lls) -> index_manager lls n_stoch = Ok X ->
    let L := map snd lls in
    n_endog X = List.length lls /\
    n_forward X = List.length (members_of L (forward L)) /\
    n_backward X = List.length (members_of L (backward L)) /\
    n_state X = List.length (members_of L (backward L)) /\
    n_mixed X = List.length (members_of L (mixed L)) /\
    (~ first_column_static L ->
       n_static X = List.length (members_of L (static L)) /\
       n_dynamic X = Z.of_nat (List.length (members_of L (fun i => negb (static L i))))) /\
    (first_column_static L ->
       S (n_static X) = List.length (members_of L (static L)) /\
       n_dynamic X = Z.of_nat (S (List.length (members_of L (fun i => negb (static L i)))))).
Proof.
  intros lls ns X Hn Hr HX L; rewrite (index_manager_array lls ns Hn Hr) in HX; injection HX as <-; fold L in Hr |- *.
  assert (LL : List.length L = List.length lls) by apply map_length.
  assert (E : n_endog (array L ns) = List.length lls) by (unfold n_endog; rewrite <- LL; exact (array_length L ns (-1))).
  assert (Sp : (List.length (members_of L (fun i => negb (static L i))) + List.length (members_of L (static L)) = List.length L)%nat).
  { unfold members_of; pose proof (filter_split (fun _ => true) (static L) (seq 0 (List.length L))) as F; cbn [andb] in F.
    etransitivity; [exact F|]; clear; generalize (List.length L) as n, 0%nat; induction n as [|n IH]; intros k; [reflexivity|]; cbn [seq filter List.length]; rewrite IH; reflexivity. }
  destruct (n_static_cases L ns) as [C1 C2].
  split; [exact E|]; unfold n_forward, n_backward, n_state, n_mixed, members_of.
  split; [apply (count_array is_forward (fun m z p => p)); intros [a|] [b|] [d|]; reflexivity|].
  split; [apply (count_array is_backward (fun m z p => m)); intros [a|] [b|] [d|]; reflexivity|].
  split; [apply (count_array is_state (fun m z p => m)); intros [a|] [b|] [d|]; reflexivity|].
  split; [apply (count_array is_mixed (fun m z p => m && p)); intros [a|] [b|] [d|]; reflexivity|].
  fold (members_of L (static L)) (members_of L (fun i => negb (static L i))); unfold n_dynamic; rewrite E.
  split; intros F; [specialize (C2 F)|specialize (C1 F)]; split; auto; lia.
Qed.
Print Assumptions C26_counts_partial.

Example C26_nonvacuous :
  NoDup (map fst lls1) /\ in_range (map snd lls1) /\ ~ first_column_static (map snd lls1) /\
  exists X, index_manager lls1 0 = Ok X /\ (n_static X, n_forward X, n_backward X, n_mixed X) = (1, 2, 2, 1)%nat /\ n_dynamic X = 3.
Proof.
  split; [repeat constructor; cbn [In]; intuition discriminate|]; split.
  { repeat constructor; try discriminate; try lia. }
  split; [intros (i & H & _); vm_compute in H; discriminate|].
  eexists; split; [vm_compute; reflexivity|]; split; vm_compute; reflexivity.
Qed.

(** The unconditional statement is false: y = c, c = c(+1): y is static and has the
    first column. *)
Theorem C26_refuted :
  ~ (forall (lls : list (string * list Z)) (n_stoch : nat) X,
       NoDup (map fst lls) -> in_range (map snd lls) -> index_manager lls n_stoch = Ok X ->
       n_static X = List.length (members_of (map snd lls) (static (map snd lls)))).
Proof.
  intros H; specialize (H [("y", [0]); ("c", [0; 1])]%string 0%nat _ ltac:(repeat constructor; cbn [In]; intuition discriminate)
    ltac:(repeat constructor; try discriminate; lia) eq_refl).
  vm_compute in H; discriminate.
Qed.
Print Assumptions C26_refuted.
