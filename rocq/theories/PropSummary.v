(** Printed decision rules: properties C57 and C64. *)
From Verif Require Import Base Nd NdInst Indexing IndexingSpec Summary SummarySpec SummaryProofs.

(** ** C57: each coefficient is printed in the row of what it multiplies *)

(** The first-order table.  [cy v s] is the coefficient of variable [v] on state [s] and
    [cu v e] on shock [e]; the arrays hold them in the order of the decision rule.  The
    table has the steady state, a row for each state and a row for each shock, in the order
    of declaration, unless all its numbers are zero. *)
Theorem C57_first_partial :
  forall (F : Type) (O : rops F) (is_zero : F -> bool) (x : indexes) (endog stoch : list string) (ss : list F) (cy cu : nat -> nat -> F),
  let n := List.length endog in
  Permutation (dr_order x) (seq 0 n) -> 2 <= n -> List.length ss = n -> 1 <= List.length stoch ->
  first_summary F O is_zero x endog stoch ss
    (squeeze F (dr_matrix F x n (List.length (dr_states x)) (fun v j => cy v (nth j (dr_states x) 0))))
    (squeeze F (dr_matrix F x n (List.length stoch) cu)) None =
  let t := first_table F endog stoch ss (r0 O) (members is_state x) cy cu in
  if forallb is_zero (numbers F t) then Err OverflowErr else Ok t.
Proof.
  intros F O is_zero x endog stoch ss cy cu n Hp Hn Hs Hk.
  apply (first_ok F O is_zero x endog stoch ss cy cu Hp); [fold n; lia|exact Hs|left; fold n; lia|exact Hk].
Qed.
Print Assumptions C57_first_partial.

(** A model of one variable: the table is right with one state and one shock, and an error
    with more shocks. *)
Theorem C57_one_variable :
  forall (F : Type) (O : rops F) (is_zero : F -> bool) (x : indexes) (endog stoch : list string) (ss : list F) (cy cu : nat -> nat -> F),
  Permutation (dr_order x) (seq 0 1) -> List.length endog = 1 -> List.length ss = 1 ->
  let summary := first_summary F O is_zero x endog stoch ss
    (squeeze F (dr_matrix F x 1 (List.length (dr_states x)) (fun v j => cy v (nth j (dr_states x) 0))))
    (squeeze F (dr_matrix F x 1 (List.length stoch) cu)) None in
  (List.length (dr_states x) = 1 -> List.length stoch = 1 ->
     summary = let t := first_table F endog stoch ss (r0 O) (members is_state x) cy cu in
               if forallb is_zero (numbers F t) then Err OverflowErr else Ok t) /\
  (2 <= List.length stoch -> exists e, summary = Err e).
Proof.
  intros F O is_zero x endog stoch ss cy cu Hp Hn Hs; cbv zeta; split.
  - intros S1 K1; pose proof (first_ok F O is_zero x endog stoch ss cy cu) as H; rewrite !Hn in H.
    apply H; [exact Hp|lia|exact Hs|right; split; assumption|lia].
  - intros K; pose proof (first_one_variable F O is_zero x endog stoch ss cy cu) as H; rewrite !Hn in H.
    apply H; [exact Hp|lia|exact Hs|reflexivity| |exact K].
    unfold dr_states; pose proof (Permutation_length Hp) as L; destruct (dr_order x) as [|a [|]]; try discriminate L; cbn [filter].
    destruct (existsb _ _); cbn; lia.
Qed.
Print Assumptions C57_one_variable.

(** The second-order table, exactly: everything is as it should be but the rows of a state and
    a shock, which show the coefficients of another state when the decision rule orders the
    states differently. *)
Theorem C57_second_exact :
  forall (F : Type) (O : rops F) (is_zero below : F -> bool) (x : indexes) (endog stoch : list string) (ss : list F)
    (cy cu : nat -> nat -> F) (cyy cyu cuu : nat -> nat -> nat -> F) (cr : nat -> F) gy gu ghxx ghxu ghuu del2,
  let n := List.length endog in let k := List.length stoch in let st := dr_states x in let ns := List.length st in
  Permutation (dr_order x) (seq 0 n) -> 2 <= n -> List.length ss = n -> n_exog x = k ->
  is_array F x n gy ns (fun v j => cy v (nth j st 0)) ->
  is_array F x n gu k cu ->
  is_array F x n ghxx (ns * ns) (fun v j => cyy v (nth (j / ns) st 0) (nth (j mod ns) st 0)) ->
  is_array F x n ghxu (ns * k) (fun v j => cyu v (nth (j / k) st 0) (j mod k)) ->
  is_array F x n ghuu (k * k) (fun v j => cuu v (j / k) (j mod k)) ->
  is_array F x n del2 1 (fun v _ => cr v) ->
  second_summary F O is_zero x endog stoch ss gy gu ghxx ghxu ghuu del2 below =
  let t := second_table F endog stoch ss (r0 O) (members is_state x) cy cu cyy cuu cr below (misplaced F x cyu) in
  if forallb is_zero (numbers F t) then Err OverflowErr else Ok t.
Proof.
  intros F O is_zero below x endog stoch ss cy cu cyy cyu cuu cr gy gu ghxx ghxu ghuu del2 n k st ns Hp Hn Hs Hk H1 H2 H3 H4 H5 H6.
  exact (second_ok F O is_zero below x endog stoch ss cy cu cyy cyu cuu cr Hp Hs Hk Hn gy gu ghxx ghxu ghuu del2 H1 H2 H3 H4 H5 H6).
Qed.
Print Assumptions C57_second_exact.

(** If the decision rule has the states in the order of declaration, the table is right. *)
Theorem C57_second_partial :
  forall (F : Type) (O : rops F) (is_zero below : F -> bool) (x : indexes) (endog stoch : list string) (ss : list F)
    (cy cu : nat -> nat -> F) (cyy cyu cuu : nat -> nat -> nat -> F) (cr : nat -> F) gy gu ghxx ghxu ghuu del2,
  let n := List.length endog in let k := List.length stoch in let st := dr_states x in let ns := List.length st in
  Permutation (dr_order x) (seq 0 n) -> 2 <= n -> List.length ss = n -> n_exog x = k ->
  dr_states x = members is_state x ->
  is_array F x n gy ns (fun v j => cy v (nth j st 0)) ->
  is_array F x n gu k cu ->
  is_array F x n ghxx (ns * ns) (fun v j => cyy v (nth (j / ns) st 0) (nth (j mod ns) st 0)) ->
  is_array F x n ghxu (ns * k) (fun v j => cyu v (nth (j / k) st 0) (j mod k)) ->
  is_array F x n ghuu (k * k) (fun v j => cuu v (j / k) (j mod k)) ->
  is_array F x n del2 1 (fun v _ => cr v) ->
  second_summary F O is_zero x endog stoch ss gy gu ghxx ghxu ghuu del2 below =
  let t := second_table F endog stoch ss (r0 O) (members is_state x) cy cu cyy cuu cr below cyu in
  if forallb is_zero (numbers F t) then Err OverflowErr else Ok t.
Proof.
  intros F O is_zero below x endog stoch ss cy cu cyy cyu cuu cr gy gu ghxx ghxu ghuu del2 n k st ns Hp Hn Hs Hk E H1 H2 H3 H4 H5 H6.
  rewrite (C57_second_exact F O is_zero below x endog stoch ss cy cu cyy cyu cuu cr _ _ _ _ _ _ Hp Hn Hs Hk H1 H2 H3 H4 H5 H6).
  assert (CR : cross_rows F endog stoch (members is_state x) (misplaced F x cyu) = cross_rows F endog stoch (members is_state x) cyu).
  { unfold cross_rows; apply map_ext_in; intros [s e] Hse; apply in_prod_iff in Hse as [Hse _]; cbn [fst snd]; unfold printed; do 2 f_equal.
    apply map_ext; intros v; unfold misplaced; rewrite E; f_equal.
    destruct (In_nth _ _ 0 Hse) as (i & Hi & <-); rewrite position_nth; [reflexivity|apply where_sorted|apply where_sorted|exact Hi]. }
  unfold second_table; rewrite CR; reflexivity.
Qed.
Print Assumptions C57_second_partial.

(** ** Examples.  Two variables: [a] has a lag and a lead, [b] a lag; the decision rule has
    [b] first.  Coefficients are numbers whose digits are the variable and what it multiplies. *)
Definition two_states : indexes := Indexes [Some 0; Some 1] [Some 2; Some 3] [Some 4; None] 5 1.
Definition ab : list string := ["a"; "b"]%string.
Definition e1 : list string := ["e"]%string.
Definition zcy (v s : nat) : Z := (10 + 10 * Z.of_nat v + Z.of_nat s)%Z.
Definition zcu (v s : nat) : Z := (50 + 10 * Z.of_nat v + Z.of_nat s)%Z.
Definition zc2 (b : Z) (v s t : nat) : Z := (b + 100 * Z.of_nat v + 10 * Z.of_nat s + Z.of_nat t)%Z.
Definition zeq0 (y : Z) : bool := Z.eqb y 0.
Definition small (y : Z) : bool := Z.ltb y 1.

Lemma two_states_order : dr_order two_states = [1; 0] /\ dr_states two_states = [1; 0] /\ members is_state two_states = [0; 1].
Proof. repeat split. Qed.
Lemma two_states_perm : Permutation (dr_order two_states) (seq 0 2).
Proof. apply perm_swap. Qed.

(** The first-order table of this model. *)
Example C57_nonvacuous :
  first_summary Z ZO zeq0 two_states ab e1 [7%Z; 8%Z]
    (squeeze Z (dr_matrix Z two_states 2 2 (fun v j => zcy v (nth j [1; 0] 0)))) (squeeze Z (dr_matrix Z two_states 2 1 zcu)) None =
  Ok [(""%string, Header ab); ("steady"%string, Values [7; 8]%Z); ("a(-1)"%string, Values [10; 20]%Z); ("b(-1)"%string, Values [11; 21]%Z);
      (""%string, Plus); ("e"%string, Values [50; 60]%Z)].
Proof. reflexivity. Qed.

(** The second-order table shows the coefficients of the states in the wrong rows. *)
Theorem C57_refuted :
  exists (x : indexes) (endog stoch : list string) (ss : list Z) cy cu cyy cyu cuu cr gy gu ghxx ghxu ghuu del2,
  let n := List.length endog in let k := List.length stoch in let st := dr_states x in let ns := List.length st in
  Permutation (dr_order x) (seq 0 n) /\ 2 <= n /\ List.length ss = n /\ n_exog x = k /\
  is_array Z x n gy ns (fun v j => cy v (nth j st 0)) /\
  is_array Z x n gu k cu /\
  is_array Z x n ghxx (ns * ns) (fun v j => cyy v (nth (j / ns) st 0) (nth (j mod ns) st 0)) /\
  is_array Z x n ghxu (ns * k) (fun v j => cyu v (nth (j / k) st 0) (j mod k)) /\
  is_array Z x n ghuu (k * k) (fun v j => cuu v (j / k) (j mod k)) /\
  is_array Z x n del2 1 (fun v _ => cr v) /\
  exists t, second_summary Z ZO zeq0 x endog stoch ss gy gu ghxx ghxu ghuu del2 small = Ok t /\
    In ("a(-1), e"%string, Values [cyu 0 1 0; cyu 1 1 0]) t /\ In ("b(-1), e"%string, Values [cyu 0 0 0; cyu 1 0 0]) t /\
    cyu 0 1 0 <> cyu 0 0 0.
Proof.
  exists two_states, ab, e1, [7%Z; 8%Z], zcy, zcu, (zc2 100), (zc2 300), (zc2 500), (fun v => Z.of_nat v + 1)%Z.
  do 6 eexists; cbv zeta.
  split; [exact two_states_perm|]; split; [cbn; lia|]; split; [reflexivity|]; split; [reflexivity|].
  split; [left; reflexivity|]; split; [left; reflexivity|]; split; [left; reflexivity|]; split; [left; reflexivity|]; split; [left; reflexivity|]; split; [left; reflexivity|].
  eexists; split; [reflexivity|]; split; [|split; [|discriminate]]; cbn; intuition reflexivity.
Qed.
Print Assumptions C57_refuted.

(** The hypothesis of [C57_second_partial] is met when the states are declared in the order of
    the decision rule. *)
Definition two_states' : indexes := Indexes [Some 0; Some 1] [Some 2; Some 3] [None; Some 4] 5 1.
Example C57_second_nonvacuous :
  Permutation (dr_order two_states') (seq 0 2) /\ n_exog two_states' = 1 /\ dr_states two_states' = members is_state two_states' /\
  List.length (dr_states two_states') = 2.
Proof. repeat split; apply Permutation_refl. Qed.

(** ** C64: a threshold leaves out negligible rows only *)

(** It does not: the comparison has no absolute value, so a state whose coefficients are
    large and negative is left out. *)
Theorem C64_refuted :
  exists (cy : nat -> nat -> Z) gy gu ghxx ghxu ghuu del2,
  let zero2 := fun _ _ : nat => 0%Z in let zero3 := fun _ _ _ : nat => 0%Z in
  is_array Z two_states 2 gy 2 (fun v j => cy v (nth j (dr_states two_states) 0)) /\
  is_array Z two_states 2 gu 1 zcu /\
  is_array Z two_states 2 ghxx 4 zero2 /\ is_array Z two_states 2 ghxu 2 zero2 /\ is_array Z two_states 2 ghuu 1 zero2 /\
  is_array Z two_states 2 del2 1 zero2 /\
  (forall v, cy v 0 = (-1000)%Z) /\
  exists t, second_summary Z ZO zeq0 two_states ab e1 [7%Z; 8%Z] gy gu ghxx ghxu ghuu del2 small = Ok t /\
    ~ In "a(-1)"%string (map fst t) /\ In "b(-1)"%string (map fst t).
Proof.
  exists (fun _ s => if s =? 0 then (-1000)%Z else 5%Z); do 6 eexists; cbv zeta.
  split; [left; reflexivity|]; split; [left; reflexivity|]; split; [left; reflexivity|]; split; [left; reflexivity|]; split; [left; reflexivity|]; split; [left; reflexivity|].
  split; [reflexivity|]; eexists; split; [reflexivity|]; split; cbn; intuition discriminate.
Qed.
Print Assumptions C64_refuted.

(** Exactly: the row of a state is left out when its coefficients are all below the threshold;
    it stands in the table otherwise. *)
Theorem C64_rows :
  forall (F : Type) (below : F -> bool) (endog stoch : list string) (ss : list F) (dflt : F) states cy cu cyy cuu cr cross s,
  In s states ->
  let t := second_table F endog stoch ss dflt states cy cu cyy cuu cr below cross in
  let row := (state_name endog s, Values (map (fun v => cy v s) (seq 0 (List.length endog)))) in
  ((exists v, v < List.length endog /\ below (cy v s) = false) -> In row t) /\
  ((forall v, v < List.length endog -> below (cy v s) = true) -> ~ In row (filter (shown F below) (state_rows F endog states cy))).
Proof.
  intros F below endog stoch ss dflt states cy cu cyy cuu cr cross s Hs t row; split.
  - intros (v & Hv & B); unfold t, second_table; apply in_or_app; right; apply in_or_app; right; apply in_or_app; left; apply filter_In; split.
    + unfold state_rows; apply in_map_iff; exists s; split; [reflexivity|exact Hs].
    + unfold shown, row; cbn [snd]; apply existsb_exists; exists (cy v s); split; [apply in_map_iff; exists v; split; [reflexivity|apply in_seq; lia]|rewrite B; reflexivity].
  - intros B H; apply filter_In in H as [_ H]; unfold shown, row in H; cbn [snd] in H; apply existsb_exists in H as (y & Hy & N).
    apply in_map_iff in Hy as (v & <- & Hv); apply in_seq in Hv; rewrite B in N by lia; discriminate.
Qed.
Print Assumptions C64_rows.

(** With a threshold the first-order table is an error unless there are as many rows as
    variables: the mask of rows is used on columns. *)
Theorem C64_first_threshold :
  forall (F : Type) (O : rops F) (is_zero below : F -> bool) (x : indexes) (endog stoch : list string) (ss : list F) (cy cu : nat -> nat -> F),
  let n := List.length endog in
  Permutation (dr_order x) (seq 0 n) -> 2 <= n -> List.length ss = n ->
  1 + List.length (dr_states x) + List.length stoch <> n ->
  first_summary F O is_zero x endog stoch ss
    (squeeze F (dr_matrix F x n (List.length (dr_states x)) (fun v j => cy v (nth j (dr_states x) 0))))
    (squeeze F (dr_matrix F x n (List.length stoch) cu)) (Some below) = Err IndexErr.
Proof.
  intros F O is_zero below x endog stoch ss cy cu n Hp Hn Hs Hr; unfold first_summary, first_arrays, dr_matrix.
  rewrite (ss_dr F O x endog ss Hp Hs); cbn [bind].
  rewrite columns_squeeze by (left; lia); rewrite columns_squeeze by (left; lia); rewrite columns_V1; cbn [fst snd].
  unfold colsf at 1; rewrite (states_take x n Hp (fun s => map (fun i => cy (nth i (dr_order x) 0) s) (seq 0 n))); cbn [bind].
  rewrite map_length, (order_length x n Hp); cbn [hstack forallb fst snd]; rewrite !Nat.eqb_refl; cbn [andb].
  cbn [map snd concat app]; rewrite app_nil_r; cbn [bind mapM snd].
  rewrite (order_seq x endog Hp (fun v => nth v ss (r0 O))); fold n; rewrite (rows_take x n Hp (fun v => nth v ss (r0 O))); cbn [bind].
  rewrite mapM_app, (mapM_map _ (fun s => map (fun i => cy (nth i (dr_order x) 0) s) (seq 0 n))).
  rewrite (mapM_ok _ (fun s => map (fun v => cy v s) (seq 0 n)) (members is_state x)) by (intros s _; exact (rows_take x n Hp (fun v => cy v s))).
  cbn [bind]; unfold colsf; rewrite mapM_map, (mapM_ok _ (fun e => map (fun v => cu v e) (seq 0 n))) by (intros e _; exact (rows_take x n Hp (fun v => cu v e))).
  cbn [bind]; unfold summarize_array; cbn [mapM]; unfold take_mask at 1; cbn [map List.length].
  rewrite !map_length, app_length, !map_length, !seq_length.
  pose proof (Permutation_length (dr_states_perm x n Hp)) as L.
  destruct (Nat.eqb_spec (S (List.length (members is_state x) + List.length stoch)) n); [lia|reflexivity].
Qed.
Print Assumptions C64_first_threshold.

Example C64_nonvacuous :
  Permutation (dr_order two_states) (seq 0 2) /\ 1 + List.length (dr_states two_states) + List.length e1 <> List.length ab.
Proof. split; [exact two_states_perm|cbn; lia]. Qed.
