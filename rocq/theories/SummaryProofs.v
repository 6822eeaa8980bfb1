(** Proofs about printed decision rules. *)
From Verif Require Import Base Nd Indexing IndexingSpec IndexingProofs IndexingProofs2 Summary SummarySpec.
From Coq Require Import Sorted.

(** ** Lists *)

Lemma take_ok {A} (d : A) l idx : (forall i, In i idx -> i < List.length l) -> take l idx = Ok (map (fun i => nth i l d) idx).
Proof.
  unfold take; induction idx as [|i idx IH]; intros H; [reflexivity|]; cbn [mapM map].
  rewrite (nth_error_nth' l d) by (apply H; left; reflexivity); cbn [bind].
  rewrite IH by (intros j Hj; apply H; right; exact Hj); reflexivity.
Qed.
Lemma select_true {A} (l : list A) : select (repeat true (List.length l)) l = l.
Proof. induction l as [|a l IH]; [reflexivity|]; cbn; rewrite IH; reflexivity. Qed.
Lemma take_mask_true {A} (l : list A) n : List.length l = n -> take_mask l (repeat true n) = Ok l.
Proof. intros <-; unfold take_mask; rewrite repeat_length, Nat.eqb_refl, select_true; reflexivity. Qed.
Lemma mapM_ok {A B} (f : A -> res B) (g : A -> B) l : (forall a, In a l -> f a = Ok (g a)) -> mapM f l = Ok (map g l).
Proof.
  induction l as [|a l IH]; intros H; [reflexivity|]; cbn [mapM map]; rewrite (H a) by (left; reflexivity); cbn [bind].
  rewrite IH by (intros b Hb; apply H; right; exact Hb); reflexivity.
Qed.
Lemma mapM_map {A B C} (f : B -> res C) (g : A -> B) l : mapM f (map g l) = mapM (fun a => f (g a)) l.
Proof. induction l as [|a l IH]; [reflexivity|]; cbn [map mapM]; rewrite IH; reflexivity. Qed.
Lemma mapM_app {A B} (f : A -> res B) l l' : mapM f (l ++ l') = (do a <- mapM f l; do b <- mapM f l'; Ok (a ++ b)).
Proof.
  induction l as [|a l IH]; cbn [app mapM bind]; [destruct (mapM f l'); reflexivity|].
  destruct (f a); [|reflexivity]; cbn [bind]; rewrite IH; destruct (mapM f l); [|reflexivity]; cbn [bind]; destruct (mapM f l'); reflexivity.
Qed.
Lemma select_app {A} m m' (l l' : list A) : List.length m = List.length l -> select (m ++ m') (l ++ l') = select m l ++ select m' l'.
Proof.
  revert l; induction m as [|b m IH]; intros [|a l] H; try discriminate H; [reflexivity|]; cbn.
  rewrite IH by (injection H; auto); destruct b; reflexivity.
Qed.
Lemma select_filter_map {A} (f : A -> bool) (l : list A) : select (map f l) l = filter f l.
Proof. induction l as [|a l IH]; [reflexivity|]; cbn; rewrite IH; reflexivity. Qed.
Lemma select_combine {A B} m : forall (a : list A) (b : list B), combine (select m a) (select m b) = select m (combine a b) \/ List.length a <> List.length b.
Proof.
  induction m as [|x m IH]; intros [|u a] [|v b]; cbn; try (left; reflexivity); try (right; discriminate).
  destruct (IH a b) as [E|N]; [|right; congruence]; left; destruct x; cbn; rewrite E; reflexivity.
Qed.
Lemma select_length {A B} m : forall (a : list A) (b : list B), List.length a = List.length b -> List.length (select m a) = List.length (select m b).
Proof.
  induction m as [|x m IH]; intros [|u a] [|v b] H; try discriminate H; cbn; try reflexivity.
  injection H as H; destruct x; cbn; rewrite (IH a b H); reflexivity.
Qed.
Lemma select_map {A B} (f : A -> B) m : forall l, select m (map f l) = map f (select m l).
Proof. induction m as [|b m IH]; intros [|a l]; cbn; try reflexivity; rewrite IH; destruct b; reflexivity. Qed.
Lemma combine_map_same {A B C} (f : A -> B) (g : A -> C) l : combine (map f l) (map g l) = map (fun a => (f a, g a)) l.
Proof. induction l as [|a l IH]; [reflexivity|]; cbn; rewrite IH; reflexivity. Qed.
Lemma combine_app' {A B} (a a' : list A) (b b' : list B) : List.length a = List.length b -> combine (a ++ a') (b ++ b') = combine a b ++ combine a' b'.
Proof. revert b; induction a as [|x a IH]; intros [|y b] H; try discriminate H; [reflexivity|]; cbn; rewrite IH by (injection H; auto); reflexivity. Qed.
Lemma combine_trunc {A B} (a : list A) (b b' : list B) : List.length a = List.length b -> combine a (b ++ b') = combine a b.
Proof. revert b; induction a as [|x a IH]; intros [|y b] H; try discriminate H; [reflexivity|]; cbn; rewrite IH by (injection H; auto); reflexivity. Qed.
Lemma map_nth_seq {A} (d : A) l : map (fun i => nth i l d) (seq 0 (List.length l)) = l.
Proof.
  induction l as [|a l IH]; [reflexivity|]; cbn [List.length seq map nth]; f_equal.
  rewrite <- seq_shift, map_map; exact IH.
Qed.

(** ** Sorting *)

Lemma argsort_sorts l l' : StronglySorted le l' -> Permutation l l' -> map (fun i => nth i l 0) (argsort l) = l'.
Proof.
  intros S P; unfold argsort; set (c := combine l (seq 0 (List.length l))); destruct (sort_spec c) as (Ps & Ss); set (s := fold_right insert_by [] c) in *.
  assert (E : map fst s = l').
  { apply sorted_unique; [exact Ss|exact S|]; rewrite Ps; unfold c; rewrite combine_fst by apply seq_length; exact P. }
  rewrite <- E, map_map; apply map_ext_in; intros [a j] Hp; cbn [fst snd].
  apply (Permutation_in _ Ps), In_nth_error in Hp as (i & Hi); apply combine_nth_error in Hi as (Hi & ->); cbn [plus].
  apply nth_error_nth; exact Hi.
Qed.
Lemma argsort_bound l i : In i (argsort l) -> i < List.length l.
Proof.
  unfold argsort; intros H; apply in_map_iff in H as ([a j] & <- & H); apply (Permutation_in _ (proj1 (sort_spec _))) in H.
  apply In_nth_error in H as (i & Hi); apply combine_nth_error in Hi as (Hi & ->); cbn; apply nth_error_Some; congruence.
Qed.
Lemma argsort_length l : List.length (argsort l) = List.length l.
Proof.
  unfold argsort; rewrite map_length, (Permutation_length (proj1 (sort_spec _))), combine_length, seq_length; lia.
Qed.
Lemma where_bounds m : forall k i, In i (where_ m k) -> k <= i < k + List.length m.
Proof.
  induction m as [|[|] m IH]; intros k i; cbn [where_ In List.length]; [intros []|intros [<-|H]; [lia|apply IH in H; lia]|intros H; apply IH in H; lia].
Qed.
Lemma where_sorted m : forall k, StronglySorted le (where_ m k) /\ NoDup (where_ m k).
Proof.
  induction m as [|[|] m IH]; intros k; cbn [where_]; [split; constructor| |apply IH].
  destruct (IH (S k)) as [A B]; split; constructor; try assumption.
  - apply Forall_forall; intros i Hi; apply where_bounds in Hi; lia.
  - intros Hi; apply where_bounds in Hi; lia.
Qed.
Lemma In_where p a : forall b c k i, In i (where_ (mask3 p a b c) k) <->
  exists u v w, k <= i /\ nth_error a (i - k) = Some u /\ nth_error b (i - k) = Some v /\ nth_error c (i - k) = Some w /\ p u v w = true.
Proof.
  induction a as [|u a IH]; intros [|v b] [|w c] k i; cbn [mask3 where_ In].
  1-7: split; [intros []|intros (u' & v' & w' & _ & Ha & Hb & Hc & _); destruct (i - k); discriminate].
  assert (X : In i (where_ (mask3 p a b c) (S k)) <-> exists u v w, S k <= i /\ nth_error a (i - S k) = Some u /\ nth_error b (i - S k) = Some v /\ nth_error c (i - S k) = Some w /\ p u v w = true) by apply IH.
  assert (Y : S k <= i -> i - k = S (i - S k)) by lia.
  destruct (p u v w) eqn:E; cbn [where_ In].
  - rewrite X; split.
    + intros [<-|(u' & v' & w' & L & H)]; [exists u, v, w; rewrite Nat.sub_diag; auto|].
      exists u', v', w'; rewrite (Y L); cbn [nth_error]; split; [lia|exact H].
    + intros (u' & v' & w' & L & H); destruct (Nat.eq_dec k i) as [->|N]; [left; reflexivity|right].
      exists u', v', w'; rewrite (Y ltac:(lia)) in H; cbn [nth_error] in H; split; [lia|exact H].
  - rewrite X; split.
    + intros (u' & v' & w' & L & H); exists u', v', w'; rewrite (Y L); cbn [nth_error]; split; [lia|exact H].
    + intros (u' & v' & w' & L & Ha & Hb & Hc & Hp); destruct (Nat.eq_dec k i) as [->|N].
      * rewrite Nat.sub_diag in Ha, Hb, Hc; injection Ha as <-; injection Hb as <-; injection Hc as <-; congruence.
      * exists u', v', w'; rewrite (Y ltac:(lia)) in Ha, Hb, Hc; cbn [nth_error] in Ha, Hb, Hc; split; [lia|auto].
Qed.
Lemma state_in_order x i : In i (members is_state x) -> In i (dr_order x).
Proof.
  unfold dr_order, members, mask; intros H; apply In_where in H as (u & v & w & L & Ha & Hb & Hc & Hp).
  rewrite !in_app_iff; destruct w as [w|].
  - right; right; left; apply In_where; exists u, v, (Some w); repeat split; try assumption; unfold is_mixed, is_state in *; cbn; rewrite Hp; reflexivity.
  - right; left; apply In_where; exists u, v, None; repeat split; try assumption; unfold not_forward_back, is_state in *; cbn.
    rewrite Hp, Bool.orb_true_r; reflexivity.
Qed.


Section Order.
  Variable x : indexes.
  Variable n : nat.
  Hypothesis Hp : Permutation (dr_order x) (seq 0 n).

  Lemma order_length : List.length (dr_order x) = n.
  Proof. rewrite (Permutation_length Hp); apply seq_length. Qed.
  Lemma order_bound i : In i (dr_order x) -> i < n.
  Proof. intros H; apply (Permutation_in _ Hp), in_seq in H; lia. Qed.
  Lemma dr_states_perm : Permutation (dr_states x) (members is_state x).
  Proof.
    unfold dr_states; apply NoDup_Permutation; [apply NoDup_filter, (Permutation_NoDup (Permutation_sym Hp)), seq_NoDup|apply where_sorted|].
    intros i; rewrite filter_In, existsb_exists; split.
    - intros (_ & j & Hj & E); apply Nat.eqb_eq in E; subst j; exact Hj.
    - intros H; split; [apply state_in_order; exact H|exists i; split; [exact H|apply Nat.eqb_refl]].
  Qed.
  Lemma state_bound s : In s (members is_state x) -> s < n.
  Proof. intros H; apply order_bound, state_in_order; exact H. Qed.

  (** Reordering columns of states. *)
  Lemma states_take {A} (h : nat -> A) :
    take (map (fun j => h (nth j (dr_states x) 0)) (seq 0 (List.length (dr_states x)))) (states_dc x) = Ok (map h (members is_state x)).
  Proof.
    rewrite <- (argsort_sorts (dr_states x) (members is_state x)) by (try apply where_sorted; apply dr_states_perm).
    unfold states_dc; fold (dr_states x); rewrite (take_ok (h 0)).
    - rewrite map_map; f_equal; apply map_ext_in; intros i Hi; apply argsort_bound in Hi.
      rewrite (nth_indep _ _ (h (nth 0 (dr_states x) 0))) by (rewrite map_length, seq_length; exact Hi).
      rewrite (map_nth (fun j => h (nth j (dr_states x) 0))), seq_nth by exact Hi; reflexivity.
    - intros i Hi; rewrite map_length, seq_length; apply argsort_bound; exact Hi.
  Qed.

  (** Reordering rows of variables. *)
  Lemma rows_take {A} (h : nat -> A) : take (map (fun i => h (nth i (dr_order x) 0)) (seq 0 n)) (dc_order x) = Ok (map h (seq 0 n)).
  Proof.
    destruct (argsort_inverse (dr_order x) ltac:(rewrite order_length; exact Hp)) as [P I]; rewrite order_length in P; fold (dc_order x) in P, I.
    assert (B : forall i, In i (dc_order x) -> i < n) by (intros i Hi; apply (Permutation_in _ P), in_seq in Hi; lia).
    rewrite (take_ok (h 0)) by (intros i Hi; rewrite map_length, seq_length; apply B; exact Hi); f_equal.
    assert (L : List.length (dc_order x) = n) by (rewrite (Permutation_length P); apply seq_length).
    apply (nth_ext _ _ (h 0) (h 0)); [rewrite !map_length, seq_length; exact L|].
    intros j Hj; rewrite map_length, L in Hj.
    rewrite (map_nth h (seq 0 n)), seq_nth by exact Hj; cbn [plus].
    set (f := fun i => nth i (map (fun i0 => h (nth i0 (dr_order x) 0)) (seq 0 n)) (h 0)).
    rewrite (nth_indep _ _ (f 0)) by (rewrite map_length, L; exact Hj); rewrite (map_nth f); unfold f.
    assert (Hi : nth j (dc_order x) 0 < n) by (apply B, nth_In; rewrite L; exact Hj).
    rewrite (nth_indep _ _ (h (nth 0 (dr_order x) 0))) by (rewrite map_length, seq_length; exact Hi).
    rewrite (map_nth (fun i0 => h (nth i0 (dr_order x) 0))), seq_nth by exact Hi; cbn [plus]; f_equal.
    assert (E : nth_error (dr_order x) (nth j (dc_order x) 0) = Some j) by (apply I; apply nth_error_nth'; rewrite L; exact Hj).
    apply nth_error_nth; exact E.
  Qed.
End Order.

(** ** Arrays *)
Section Arrays.
  Variable F : Type.
  Variable O : rops F.
  Variable is_zero : F -> bool.

  Definition colsf (r c : nat) (f : nat -> nat -> F) : list (list F) := map (fun j => map (fun i => f i j) (seq 0 r)) (seq 0 c).
  Lemma columns_squeeze r c f : r <> 1 \/ c = 1 -> columns F (squeeze F (M2 r c f)) = (r, colsf r c f).
  Proof.
    intros H; cbn [squeeze]; destruct (Nat.eqb_spec r 1) as [->|R]; destruct (Nat.eqb_spec c 1) as [->|C]; try reflexivity.
    destruct H; contradiction.
  Qed.
  Lemma columns_M2 r c f : columns F (M2 r c f) = (r, colsf r c f).
  Proof. reflexivity. Qed.
  Lemma columns_V1 l : columns F (V1 (List.length l) (fun i => nth i l (r0 O))) = (List.length l, [l]).
  Proof. cbn; rewrite map_nth_seq; reflexivity. Qed.

  Lemma summarize_plain (rows : list (list F)) labels n : rows <> [] -> 1 <= n -> (forall r, In r rows -> List.length r = n) -> List.length labels = n ->
    summarize_array F is_zero rows labels None =
    if forallb is_zero (concat rows) then Err OverflowErr else Ok (Header labels :: map Values rows).
  Proof.
    intros Hne Hn Hr Hl; unfold summarize_array.
    assert (W : match rows with r :: _ => List.length r | [] => 0 end = n) by (destruct rows; [contradiction|apply Hr; left; reflexivity]).
    rewrite W, (mapM_ok _ (fun r => r)) by (intros r H; apply take_mask_true, Hr, H); cbn [bind]; rewrite map_id.
    rewrite (take_mask_true labels n Hl); cbn [bind].
    destruct (Nat.eqb_spec (List.length (concat rows)) 0) as [E|_]; [|reflexivity].
    destruct rows as [|r rows]; [contradiction|]; cbn [concat] in E; rewrite app_length, (Hr r) in E by (left; reflexivity); lia.
  Qed.
End Arrays.

(** ** The first-order table *)
Section First.
  Variable F : Type.
  Variable O : rops F.
  Variable is_zero : F -> bool.
  Variable x : indexes.
  Variable endog stoch : list string.
  Variable ss : list F.
  Variable cy cu : nat -> nat -> F.
  Let n := List.length endog.
  Let k := List.length stoch.
  Let ns := List.length (dr_states x).
  Hypothesis Hp : Permutation (dr_order x) (seq 0 n).
  Hypothesis Hn : 1 <= n.
  Hypothesis Hs : List.length ss = n.

  Local Notation dr_matrix := (dr_matrix F x n).
  Local Notation numbers := (numbers F).
  Local Notation values_of := (values_of F).
  Lemma colsf_dr c coef : colsf F n c (fun i j => coef (nth i (dr_order x) 0) j) =
    map (fun j => map (fun i => coef (nth i (dr_order x) 0) j) (seq 0 n)) (seq 0 c).
  Proof. reflexivity. Qed.


  Lemma ss_dr : take ss (dr_order x) = Ok (map (fun v => nth v ss (r0 O)) (dr_order x)).
  Proof. apply take_ok; intros i Hi; rewrite Hs; apply (order_bound x n Hp); exact Hi. Qed.
  Lemma order_seq {A} (h : nat -> A) : map h (dr_order x) = map (fun i => h (nth i (dr_order x) 0)) (seq 0 n).
  Proof. rewrite <- (map_nth_seq 0 (dr_order x)) at 1; rewrite map_map, (order_length x n Hp); reflexivity. Qed.

  Lemma first_ok :
    n <> 1 \/ (ns = 1 /\ k = 1) -> 1 <= k ->
    first_summary F O is_zero x endog stoch ss
      (squeeze F (dr_matrix ns (fun v j => cy v (nth j (dr_states x) 0)))) (squeeze F (dr_matrix k cu)) None =
    let t := first_table F endog stoch ss (r0 O) (members is_state x) cy cu in
    if forallb is_zero (numbers t) then Err OverflowErr else Ok t.
  Proof.
    intros H1 Hk; unfold first_summary, first_arrays, SummarySpec.dr_matrix; rewrite ss_dr; cbn [bind].
    rewrite columns_squeeze by (destruct H1 as [|[]]; auto); rewrite columns_squeeze by (destruct H1 as [|[]]; auto).
    rewrite columns_V1; cbn [fst snd].
    unfold colsf at 1; unfold ns.
    rewrite (states_take x n Hp (fun s => map (fun i => cy (nth i (dr_order x) 0) s) (seq 0 n))); cbn [bind].
    rewrite map_length, (order_length x n Hp); cbn [hstack forallb fst snd]; rewrite !Nat.eqb_refl; cbn [andb].
    cbn [map snd concat app]; rewrite app_nil_r; cbn [bind mapM snd].
    rewrite order_seq, (rows_take x n Hp (fun v => nth v ss (r0 O))); cbn [bind].
    set (R := map (fun s => map (fun v => cy v s) (seq 0 n)) (members is_state x)).
    set (U := map (fun e => map (fun v => cu v e) (seq 0 n)) (seq 0 k)).
    rewrite mapM_app, (mapM_map _ (fun s => map (fun i => cy (nth i (dr_order x) 0) s) (seq 0 n))).
    rewrite (mapM_ok _ (fun s => map (fun v => cy v s) (seq 0 n)) (members is_state x)) by (intros s _; exact (rows_take x n Hp (fun v => cy v s))).
    cbn [bind]; unfold colsf; rewrite mapM_map, (mapM_ok _ (fun e => map (fun v => cu v e) (seq 0 n)) (seq 0 k)) by (intros e _; exact (rows_take x n Hp (fun v => cu v e))).
    cbn [bind]; fold R U.
    rewrite (summarize_plain F is_zero _ endog n); [|discriminate|exact Hn| |reflexivity].
    2: { intros r [<-|Hr]; [rewrite map_length, seq_length; reflexivity|].
         apply in_app_or in Hr as [Hr|Hr]; apply in_map_iff in Hr as (y & <- & _); rewrite map_length, seq_length; reflexivity. }
    assert (EN : numbers (first_table F endog stoch ss (r0 O) (members is_state x) cy cu) = concat (map (fun v => nth v ss (r0 O)) (seq 0 n) :: R ++ U)).
    { unfold numbers, first_table, steady_rows, state_rows, shock_rows, printed, n_shocks; fold n k.
      rewrite !map_app, !map_map; cbn [map values_of snd app concat]; rewrite concat_app; cbn [concat app]; unfold R, U; rewrite concat_app; reflexivity. }
    cbv zeta; rewrite EN; destruct (forallb is_zero _); [reflexivity|]; cbn [bind].
    unfold first_labels; rewrite (take_ok EmptyString) by (intros s H; apply (state_bound x n Hp); exact H); cbn [bind].
    rewrite !map_length, !seq_length; destruct (Nat.eqb_spec k 0) as [K0|_]; [lia|].
    rewrite map_cons, Nat.add_comm; cbn [plus firstn].
    assert (FN : firstn (List.length (members is_state x)) (map Values (R ++ U)) = map Values R).
    { rewrite map_app; replace (List.length (members is_state x)) with (List.length (map (@Values F) R) + 0) by (unfold R; rewrite !map_length; lia).
      rewrite firstn_app_2, firstn_O, app_nil_r; reflexivity. }
    rewrite FN, map_app.
    assert (SK : forall a b : line F, skipn (List.length (a :: b :: map Values R ++ map Values U) - k) (a :: b :: map Values R ++ map Values U) = map Values U).
    { intros a b; change (a :: b :: map Values R ++ map Values U) with ((a :: b :: map Values R) ++ map Values U).
      assert (LU : List.length (map Values U) = k) by (unfold U; rewrite !map_length, seq_length; reflexivity).
      rewrite app_length, LU, Nat.add_sub, skipn_app, Nat.sub_diag, skipn_all; reflexivity. }
    rewrite SK.
    unfold first_table, steady_rows, state_rows, shock_rows, printed, n_shocks; fold n k; cbn [app combine fst snd]; do 3 f_equal.
    rewrite combine_app' by (unfold R; rewrite !map_length; reflexivity); f_equal.
    - unfold R; rewrite !map_map, combine_map_same; apply map_ext; intros s; reflexivity.
    - cbn [combine]; f_equal; rewrite <- (map_nth_seq EmptyString stoch) at 1; unfold U; rewrite map_map, combine_map_same; reflexivity.
  Qed.

  (** One variable and several shocks: the array of responses to shocks has become a
      vector, which is taken for a column. *)
  Lemma first_one_variable : n = 1 -> ns <= 1 -> 2 <= k ->
    exists e, first_summary F O is_zero x endog stoch ss
      (squeeze F (dr_matrix ns (fun v j => cy v (nth j (dr_states x) 0)))) (squeeze F (dr_matrix k cu)) None = Err e.
  Proof.
    intros N1 Hns Hk; exists ValueErr; unfold first_summary, first_arrays, SummarySpec.dr_matrix; rewrite ss_dr; cbn [bind].
    rewrite columns_V1, map_length, (order_length x n Hp).
    assert (CU : columns F (squeeze F (M2 n k (fun i j => cu (nth i (dr_order x) 0) j))) = (k, [map (fun j => cu (nth 0 (dr_order x) 0) j) (seq 0 k)])).
    { cbn [squeeze]; rewrite N1; destruct (Nat.eqb_spec k 1); [lia|reflexivity]. }
    rewrite CU; destruct (Nat.eq_dec ns 1) as [S1|S1].
    - rewrite columns_squeeze by (right; exact S1); cbn [fst snd]; unfold colsf, ns.
      rewrite (states_take x n Hp (fun s => map (fun i => cy (nth i (dr_order x) 0) s) (seq 0 n))); cbn [bind hstack forallb fst].
      destruct (Nat.eqb_spec k n); [lia|]; rewrite !Bool.andb_false_r; reflexivity.
    - assert (S0 : ns = 0) by lia.
      assert (CY : columns F (squeeze F (M2 n ns (fun i j => cy (nth i (dr_order x) 0) (nth j (dr_states x) 0)))) = (0, [[]])).
      { cbn [squeeze]; rewrite N1, S0; reflexivity. }
      rewrite CY; cbn [fst snd].
      assert (SD : states_dc x = []).
      { unfold states_dc; fold (dr_states x); destruct (dr_states x); [reflexivity|discriminate]. }
      rewrite SD; cbn [take mapM bind hstack forallb fst]; destruct (Nat.eqb_spec 0 n); [lia|]; rewrite Nat.eqb_refl; reflexivity.
  Qed.
End First.

(** ** Pairs *)
Lemma list_prod_seq {A B} (d : A) (d' : B) l l' :
  list_prod l l' = map (fun j => (nth (j / List.length l') l d, nth (j mod List.length l') l' d')) (seq 0 (List.length l * List.length l')).
Proof.
  destruct (Nat.eq_dec (List.length l') 0) as [Z|Z].
  { destruct l'; [|discriminate]; cbn [List.length]; rewrite Nat.mul_0_r; cbn; induction l; [reflexivity|assumption]. }
  set (k := List.length l') in *; induction l as [|a l IH]; [reflexivity|]; cbn [list_prod List.length Nat.mul].
  rewrite seq_app, map_app; f_equal.
  - rewrite <- (map_nth_seq d' l') at 1; fold k; rewrite map_map; apply map_ext_in; intros j Hj; apply in_seq in Hj.
    rewrite Nat.div_small, Nat.mod_small by lia; reflexivity.
  - rewrite IH; cbn [plus].
    assert (SH : forall m s, map (fun j => (nth (j / k) (a :: l) d, nth (j mod k) l' d')) (seq (k + s) m) = map (fun j => (nth (j / k) l d, nth (j mod k) l' d')) (seq s m)).
    { induction m as [|m IHm]; intros s; [reflexivity|]; cbn [seq map]; rewrite <- Nat.add_succ_r, IHm; f_equal.
      replace (k + s) with (s + 1 * k) by lia; rewrite Nat.div_add, Nat.mod_add, Nat.add_1_r by exact Z; reflexivity. }
    specialize (SH (List.length l * k) 0); rewrite Nat.add_0_r in SH; symmetry; exact SH.
Qed.
Lemma combine_repeat_prod {B} (l : list nat) (l' : list B) : combine (flat_map (fun a => repeat a (List.length l')) l) (concat (repeat l' (List.length l))) = list_prod l l'.
Proof.
  induction l as [|a l IH]; [reflexivity|]; cbn [flat_map List.length repeat concat list_prod].
  rewrite combine_app' by apply repeat_length; rewrite IH; f_equal; clear; induction l' as [|b l' IH]; [reflexivity|]; cbn; rewrite IH; reflexivity.
Qed.
Lemma indices_prod n m a b : List.length b = n -> List.length a = m -> indices n (repeat_each n a) (tile m b) = map (fun p => n * fst p + snd p) (list_prod a b).
Proof. intros <- <-; unfold indices, repeat_each, tile; rewrite combine_repeat_prod; reflexivity. Qed.
Lemma indices_seq n m : indices n (repeat_each n (seq 0 m)) (tile m (seq 0 n)) = seq 0 (m * n).
Proof.
  rewrite indices_prod by apply seq_length; rewrite (list_prod_seq 0 0), map_map, !seq_length.
  rewrite <- (map_id (seq 0 (m * n))) at 2; apply map_ext_in; intros j Hj; apply in_seq in Hj; cbn [fst snd].
  destruct (Nat.eq_dec n 0) as [->|Z]; [lia|].
  rewrite !seq_nth by (try apply Nat.mod_upper_bound; try apply Nat.div_lt_upper_bound; lia).
  pose proof (Nat.div_mod j n Z); lia.
Qed.
Lemma list_prod_map {A B C D} (f : A -> C) (g : B -> D) l l' : list_prod (map f l) (map g l') = map (fun p => (f (fst p), g (snd p))) (list_prod l l').
Proof. induction l as [|a l IH]; [reflexivity|]; cbn [map list_prod]; rewrite map_app, IH, !map_map; reflexivity. Qed.

Lemma position_nth l i : StronglySorted le l -> NoDup l -> i < List.length l -> position (nth i l 0) l = i.
Proof.
  revert i; induction l as [|a l IH]; intros i S N Hi; [cbn in Hi; lia|].
  apply StronglySorted_inv in S as [S A]; apply NoDup_cons_iff in N as [N1 N2]; rewrite Forall_forall in A; unfold position; cbn [filter].
  destruct i as [|i]; cbn [nth].
  - rewrite Nat.ltb_irrefl; destruct (filter (fun b => b <? a) l) eqn:E; [reflexivity|].
    assert (H : In n (filter (fun b => b <? a) l)) by (rewrite E; left; reflexivity); apply filter_In in H as [H L]; apply Nat.ltb_lt in L; specialize (A n H); lia.
  - assert (H : In (nth i l 0) l) by (apply nth_In; cbn in Hi; lia).
    assert (a <> nth i l 0) by (intros E; apply N1; rewrite E; exact H); specialize (A _ H).
    replace (a <? nth i l 0) with true by (symmetry; apply Nat.ltb_lt; lia); cbn [List.length]; f_equal; apply IH; cbn in Hi; try assumption; lia.
Qed.

(** ** Blocks *)
Section Blocks.
  Context {A : Type}.
  Fixpoint tag (i : nat) (cs : list (list A)) : list (nat * A) :=
    match cs with [] => [] | c :: cs' => map (pair i) c ++ tag (S i) cs' end.
  Fixpoint selects (ms : list (list bool)) (bs : list (list A)) : list (list A) :=
    match ms, bs with m :: ms', b :: bs' => select m b :: selects ms' bs' | _, _ => [] end.
  Lemma select_repeat (i : nat) m (b : list A) : List.length m = List.length b -> combine (select m (repeat i (List.length b))) (select m b) = map (pair i) (select m b).
  Proof. revert b; induction m as [|x m IH]; intros [|a b] H; try discriminate H; [reflexivity|]; cbn; destruct x; cbn; rewrite IH by (injection H; auto); reflexivity. Qed.
  Lemma select_tag ms : forall bs i, Forall2 (fun m b => List.length m = List.length b) ms bs ->
    combine (select (concat ms) (blocks i (map (@List.length A) bs))) (select (concat ms) (concat bs)) = tag i (selects ms bs).
  Proof.
    induction ms as [|m ms IH]; intros bs i H; inversion H; subst; [reflexivity|]; cbn [concat map blocks selects tag].
    rewrite !select_app by (try rewrite repeat_length; assumption).
    rewrite combine_app' by (apply select_length; apply repeat_length); rewrite IH by assumption; f_equal; apply select_repeat; assumption.
  Qed.
  Lemma tag_other i : forall cs j, i < j -> filter (fun p => fst p =? i) (tag j cs) = [].
  Proof.
    induction cs as [|c cs IH]; intros j H; [reflexivity|]; cbn [tag]; rewrite filter_app, IH by lia; rewrite app_nil_r.
    induction c as [|a c IHc]; [reflexivity|]; cbn [map filter fst]; destruct (Nat.eqb_spec j i); [lia|exact IHc].
  Qed.
  Lemma tag_block i : forall cs j, j <= i -> map snd (filter (fun p => fst p =? i) (tag j cs)) = nth (i - j) cs [].
  Proof.
    induction cs as [|c cs IH]; intros j H; cbn [tag]; [destruct (i - j); reflexivity|].
    rewrite filter_app, map_app; destruct (Nat.eq_dec i j) as [->|N].
    - rewrite tag_other, Nat.sub_diag by lia; rewrite app_nil_r; cbn [nth].
      induction c as [|a c IHc]; [reflexivity|]; cbn [map filter fst]; rewrite Nat.eqb_refl; cbn [map snd]; rewrite IHc; reflexivity.
    - rewrite IH by lia; replace (i - j) with (S (i - S j)) by lia; cbn [nth].
      replace (filter (fun p => fst p =? i) (map (pair j) c)) with (@nil (nat * A)); [reflexivity|].
      induction c as [|a c IHc]; [reflexivity|]; cbn [map filter fst]; destruct (Nat.eqb_spec j i); [lia|exact IHc].
  Qed.
End Blocks.
Lemma set_ends_both a m z : set_ends (a :: m ++ [z]) = true :: m ++ [true].
Proof. unfold set_ends; destruct m as [|b m]; [reflexivity|]; cbn [app]; change (b :: m ++ [z]) with ((b :: m) ++ [z]); rewrite removelast_last; reflexivity. Qed.

(** ** The second-order table *)
Section Second.
  Variable F : Type.
  Variable O : rops F.
  Variable is_zero : F -> bool.
  Variable below : F -> bool.
  Variable x : indexes.
  Variable endog stoch : list string.
  Variable ss : list F.
  Variable cy cu : nat -> nat -> F.
  Variable cyy cyu cuu : nat -> nat -> nat -> F.
  Variable cr : nat -> F.
  Let n := List.length endog.
  Let k := List.length stoch.
  Let ns := List.length (dr_states x).
  Hypothesis Hp : Permutation (dr_order x) (seq 0 n).
  Hypothesis Hs : List.length ss = n.
  Hypothesis Hk : n_exog x = k.
  Hypothesis Hn : 2 <= n.

  Local Notation is_array := (is_array F x n).
  Local Notation misplaced := (misplaced F x cyu).
  Lemma array_columns a c coef : is_array a c coef ->
    columns F a = (n, map (fun j => map (fun i => coef (nth i (dr_order x) 0) j) (seq 0 n)) (seq 0 c)).
  Proof. intros [->| ->]; [apply columns_M2|apply columns_squeeze; left; lia]. Qed.

  Definition table_blocks : list (list (trow F)) :=
    [steady_rows F endog ss (r0 O) ++ state_rows F endog (members is_state x) cy;
     shock_rows F endog stoch cu;
     state_pair_rows F endog (members is_state x) cyy;
     cross_rows F endog stoch (members is_state x) misplaced;
     shock_pair_rows F endog stoch cuu;
     risk_rows F endog cr].

  Lemma ns_states : ns = List.length (members is_state x).
  Proof. unfold ns; apply Permutation_length, (dr_states_perm x n Hp). Qed.
  Lemma states_dc_length : List.length (states_dc x) = ns.
  Proof. unfold states_dc; fold (dr_states x); apply argsort_length. Qed.
  Lemma states_dc_bound i : In i (states_dc x) -> i < ns.
  Proof. unfold states_dc; fold (dr_states x); apply argsort_bound. Qed.
  Lemma states_dc_members : map (fun i => nth i (dr_states x) 0) (states_dc x) = members is_state x.
  Proof. unfold states_dc; fold (dr_states x); apply argsort_sorts; [apply where_sorted|apply (dr_states_perm x n Hp)]. Qed.

  Lemma pairs_take {A} (h : nat -> nat -> A) :
    take (map (fun j => h (nth (j / ns) (dr_states x) 0) (nth (j mod ns) (dr_states x) 0)) (seq 0 (ns * ns)))
      (indices ns (repeat_each ns (states_dc x)) (tile ns (states_dc x))) =
    Ok (map (fun p => h (fst p) (snd p)) (list_prod (members is_state x) (members is_state x))).
  Proof.
    rewrite indices_prod by apply states_dc_length.
    rewrite (take_ok (h 0 0)).
    - rewrite map_map, <- states_dc_members, list_prod_map, map_map; f_equal; apply map_ext_in; intros [a b] Hab; cbn [fst snd].
      apply in_prod_iff in Hab as [Ha Hb]; apply states_dc_bound in Ha, Hb.
      set (f := fun j => h (nth (j / ns) (dr_states x) 0) (nth (j mod ns) (dr_states x) 0)).
      assert (L : ns * a + b < ns * ns) by nia.
      rewrite (nth_indep _ _ (f 0)) by (rewrite map_length, seq_length; exact L); rewrite (map_nth f), seq_nth by exact L; unfold f; cbn [plus].
      rewrite Nat.mul_comm, (Nat.add_comm (a * ns)), Nat.div_add, Nat.mod_add, Nat.div_small, Nat.mod_small by lia; reflexivity.
    - intros i Hi; rewrite map_length, seq_length; apply in_map_iff in Hi as ([a b] & <- & Hab); apply in_prod_iff in Hab as [Ha Hb].
      apply states_dc_bound in Ha, Hb; cbn [fst snd]; nia.
  Qed.
  Lemma cross_take {A} (h : nat -> nat -> A) :
    take (map (fun j => h (nth (j / k) (dr_states x) 0) (j mod k)) (seq 0 (ns * k)))
      (indices ns (repeat_each ns (seq 0 k)) (tile k (seq 0 ns))) =
    Ok (map (fun p => h (nth (position (fst p) (members is_state x)) (dr_states x) 0) (snd p)) (list_prod (members is_state x) (seq 0 k))).
  Proof.
    rewrite indices_seq, (take_ok (h 0 0)) by (intros i Hi; apply in_seq in Hi; rewrite map_length, seq_length; lia).
    f_equal; rewrite (list_prod_seq 0 0), map_map, <- ns_states, seq_length, Nat.mul_comm; apply map_ext_in; intros j Hj; apply in_seq in Hj; cbn [fst snd].
    set (f := fun j => h (nth (j / k) (dr_states x) 0) (j mod k)).
    rewrite (nth_indep _ _ (f 0)) by (rewrite map_length, seq_length; lia); rewrite (map_nth f), seq_nth by lia; unfold f; cbn [plus].
    assert (K : k <> 0) by (intros E; rewrite E in Hj; lia).
    rewrite seq_nth by (apply Nat.mod_upper_bound; exact K); rewrite position_nth; [reflexivity|apply where_sorted|apply where_sorted|].
    rewrite <- ns_states; apply Nat.div_lt_upper_bound; lia.
  Qed.

  Definition rows_of (bs : list (list (trow F))) : list (list F) := concat (map (map (values_of F)) bs).
  Lemma rows_of_concat bs : rows_of bs = map (values_of F) (concat bs).
  Proof. unfold rows_of; rewrite concat_map; reflexivity. Qed.
  Definition is_row (r : trow F) : Prop := exists label h, r = printed F endog label h.
  Lemma blocks_rows b r : In b table_blocks -> In r b -> is_row r.
  Proof.
    intros [<-|[<-|[<-|[<-|[<-|[<-|[]]]]]]] H;
      repeat (apply in_app_or in H as [H|H]); try (destruct H as [<-|[]]); try (apply in_map_iff in H as (p & <- & _)); eexists; eexists; reflexivity.
  Qed.
  Lemma rows_rows r : In r (concat table_blocks) -> is_row r.
  Proof. intros H; apply in_concat in H as (b & Hb & Hr); exact (blocks_rows b r Hb Hr). Qed.
  Lemma is_row_values r : is_row r -> snd r = Values (values_of F r) /\ List.length (values_of F r) = n.
  Proof. intros (l & h & ->); cbn; rewrite map_length, seq_length; auto. Qed.

  Lemma existsb_negb (l : list F) : existsb (fun y => negb (below y)) l = negb (forallb below l).
  Proof. induction l as [|a l IH]; [reflexivity|]; cbn; rewrite IH; destruct (below a), (forallb below l); reflexivity. Qed.

  Definition kept_blocks : list (list (trow F)) :=
    [steady_rows F endog ss (r0 O) ++ filter (shown F below) (state_rows F endog (members is_state x) cy);
     filter (shown F below) (shock_rows F endog stoch cu);
     filter (shown F below) (state_pair_rows F endog (members is_state x) cyy);
     filter (shown F below) (cross_rows F endog stoch (members is_state x) misplaced);
     filter (shown F below) (shock_pair_rows F endog stoch cuu);
     risk_rows F endog cr].
  Definition masks : list (list bool) :=
    [true :: map (shown F below) (state_rows F endog (members is_state x) cy);
     map (shown F below) (shock_rows F endog stoch cu);
     map (shown F below) (state_pair_rows F endog (members is_state x) cyy);
     map (shown F below) (cross_rows F endog stoch (members is_state x) misplaced);
     map (shown F below) (shock_pair_rows F endog stoch cuu);
     [true]].
  Lemma masks_fit : Forall2 (fun m b => List.length m = List.length b) masks table_blocks.
  Proof. unfold masks, table_blocks; repeat constructor; cbn [List.length app steady_rows]; rewrite ?app_length, ?map_length; reflexivity. Qed.
  Lemma masks_select : selects masks table_blocks = kept_blocks.
  Proof. unfold masks, table_blocks, kept_blocks; cbn [selects steady_rows app select]; rewrite !select_filter_map; reflexivity. Qed.
  Lemma masks_locs : threshold_locs F (rows_of table_blocks) below = concat masks.
  Proof.
    unfold threshold_locs; rewrite rows_of_concat, map_map.
    rewrite (map_ext_in _ (shown F below)).
    2: { intros r Hr; destruct (is_row_values r (rows_rows r Hr)) as [E _]; unfold shown; rewrite E, existsb_negb; reflexivity. }
    unfold table_blocks, masks; cbn [concat steady_rows app map risk_rows]; rewrite ?app_nil_r.
    rewrite !app_assoc, map_app; cbn [map]; rewrite set_ends_both, !map_app; reflexivity.
  Qed.
  Lemma selects_concat {A} ms : forall bs : list (list A), Forall2 (fun m b => List.length m = List.length b) ms bs -> select (concat ms) (concat bs) = concat (selects ms bs).
  Proof.
    induction ms as [|m ms IH]; intros bs H; inversion H; subst; [reflexivity|]; cbn [concat selects]; rewrite select_app, IH by assumption; reflexivity.
  Qed.

  Lemma table_numbers : numbers F (second_table F endog stoch ss (r0 O) (members is_state x) cy cu cyy cuu cr below misplaced) = concat (map (values_of F) (concat kept_blocks)).
  Proof.
    assert (B : forall rows, concat (map (values_of F) (block F below rows)) = concat (map (values_of F) (filter (shown F below) rows))).
    { intros rows; unfold block; destruct (filter (shown F below) rows) as [|r l]; [reflexivity|].
      rewrite map_app, concat_app; cbn [map values_of snd concat]; rewrite !app_nil_r; reflexivity. }
    unfold numbers, second_table, kept_blocks; cbn [concat].
    rewrite !map_app, !concat_app, !B; cbn [map values_of snd concat app]; rewrite !app_nil_r, !app_assoc; reflexivity.
  Qed.

  Lemma second_ok gy gu ghxx ghxu ghuu del2 :
    is_array gy ns (fun v j => cy v (nth j (dr_states x) 0)) ->
    is_array gu k cu ->
    is_array ghxx (ns * ns) (fun v j => cyy v (nth (j / ns) (dr_states x) 0) (nth (j mod ns) (dr_states x) 0)) ->
    is_array ghxu (ns * k) (fun v j => cyu v (nth (j / k) (dr_states x) 0) (j mod k)) ->
    is_array ghuu (k * k) (fun v j => cuu v (j / k) (j mod k)) ->
    is_array del2 1 (fun v _ => cr v) ->
    second_summary F O is_zero x endog stoch ss gy gu ghxx ghxu ghuu del2 below =
    let t := second_table F endog stoch ss (r0 O) (members is_state x) cy cu cyy cuu cr below misplaced in
    if forallb is_zero (numbers F t) then Err OverflowErr else Ok t.
  Proof.
    intros Hgy Hgu Hxx Hxu Huu Hd; unfold second_summary, second_arrays.
    rewrite (ss_dr F O x endog ss Hp Hs); cbn [bind].
    rewrite columns_V1, map_length, (order_length x n Hp).
    rewrite (array_columns _ _ _ Hgy), (array_columns _ _ _ Hgu), (array_columns _ _ _ Hxx), (array_columns _ _ _ Hxu), (array_columns _ _ _ Huu), (array_columns _ _ _ Hd); cbn [fst snd].
    unfold ns at 1; rewrite (states_take x n Hp (fun s => map (fun i => cy (nth i (dr_order x) 0) s) (seq 0 n))); cbn [bind].
    rewrite states_dc_length, Hk.
    rewrite (pairs_take (fun s s' => map (fun i => cyy (nth i (dr_order x) 0) s s') (seq 0 n))); cbn [bind].
    rewrite (cross_take (fun s e => map (fun i => cyu (nth i (dr_order x) 0) s e) (seq 0 n))); cbn [bind].
    cbn [hstack forallb fst snd map]; rewrite !Nat.eqb_refl; cbn [andb bind hstack forallb fst snd map concat]; rewrite !Nat.eqb_refl; cbn [andb bind].
    rewrite !app_nil_r.
    assert (RW : forall (l : list nat) (g : nat -> nat -> F),
      mapM (fun r => take r (dc_order x)) (map (fun j => map (fun i => g (nth i (dr_order x) 0) j) (seq 0 n)) l) = Ok (map (fun j => map (fun v => g v j) (seq 0 n)) l)).
    { intros l g; rewrite mapM_map; apply mapM_ok; intros j _; exact (rows_take x n Hp (fun v => g v j)). }
    assert (RP : forall (l : list (nat * nat)) (g : nat -> nat * nat -> F),
      mapM (fun r => take r (dc_order x)) (map (fun p => map (fun i => g (nth i (dr_order x) 0) p) (seq 0 n)) l) = Ok (map (fun p => map (fun v => g v p) (seq 0 n)) l)).
    { intros l g; rewrite mapM_map; apply mapM_ok; intros j _; exact (rows_take x n Hp (fun v => g v j)). }
    assert (ARR : mapM (fun r => take r (dc_order x))
       ((([map (fun v => nth v ss (r0 O)) (dr_order x)] ++ map (fun s => map (fun i => cy (nth i (dr_order x) 0) s) (seq 0 n)) (members is_state x))) ++
        map (fun j => map (fun i => cu (nth i (dr_order x) 0) j) (seq 0 n)) (seq 0 k) ++
        map (fun p => map (fun i => cyy (nth i (dr_order x) 0) (fst p) (snd p)) (seq 0 n)) (list_prod (members is_state x) (members is_state x)) ++
        map (fun p => map (fun i => cyu (nth i (dr_order x) 0) (nth (position (fst p) (members is_state x)) (dr_states x) 0) (snd p)) (seq 0 n)) (list_prod (members is_state x) (seq 0 k)) ++
        map (fun j => map (fun i => cuu (nth i (dr_order x) 0) (j / k) (j mod k)) (seq 0 n)) (seq 0 (k * k)) ++
        map (fun _ => map (fun i => cr (nth i (dr_order x) 0)) (seq 0 n)) (seq 0 1)) = Ok (rows_of table_blocks)).
    { rewrite !mapM_app; cbn [mapM].
      rewrite (order_seq x endog Hp (fun v => nth v ss (r0 O))); fold n; rewrite (rows_take x n Hp (fun v => nth v ss (r0 O))); cbn [bind].
      rewrite (RW _ (fun v s => cy v s)), (RW _ (fun v e => cu v e)), (RW _ (fun v j => cuu v (j / k) (j mod k))), (RW _ (fun v _ => cr v)); cbn [bind].
      rewrite (RP _ (fun v p => cyy v (fst p) (snd p))), (RP _ (fun v p => cyu v (nth (position (fst p) (members is_state x)) (dr_states x) 0) (snd p))); cbn [bind].
      unfold rows_of, table_blocks, steady_rows, state_rows, shock_rows, state_pair_rows, cross_rows, shock_pair_rows, risk_rows, pairs, SummarySpec.misplaced.
      cbn [map concat app]; rewrite !map_map; cbn [values_of snd printed map]; fold n k; rewrite (list_prod_seq 0 0 (seq 0 (n_shocks stoch))); unfold n_shocks; fold k.
      rewrite map_map, !seq_length, ?app_nil_r; do 2 f_equal; do 5 f_equal.
      apply map_ext_in; intros j Hj; apply in_seq in Hj; cbn [fst snd].
      assert (K : k <> 0) by (intros E; rewrite E in Hj; lia).
      rewrite !seq_nth by (try apply Nat.mod_upper_bound; try apply Nat.div_lt_upper_bound; lia); reflexivity. }
    cbn [snd]; rewrite ARR; cbn [bind]; clear ARR RW RP.
    rewrite masks_locs.
    assert (SEL : select (concat masks) (rows_of table_blocks) = map (values_of F) (concat kept_blocks)).
    { rewrite rows_of_concat, select_map, selects_concat, masks_select by apply masks_fit; reflexivity. }
    rewrite SEL, (summarize_plain F is_zero _ endog n); [|discriminate|lia| |reflexivity].
    2: { intros r Hr; rewrite <- SEL in Hr; rewrite rows_of_concat, select_map in Hr; apply in_map_iff in Hr as (q & <- & Hq).
         apply is_row_values, rows_rows; clear -Hq; revert Hq; generalize (concat masks) (concat table_blocks); intros m; induction m as [|b m IH]; intros [|a l] H; cbn in H; try contradiction.
         destruct b; [destruct H as [<-|H]; [left; reflexivity|]|]; right; apply IH; exact H. }
    cbv zeta; rewrite table_numbers; destruct (forallb is_zero _); [reflexivity|]; cbn [bind tl hd].
    assert (LAB : second_labels x endog stoch = Ok (map fst (concat table_blocks))).
    { unfold second_labels; rewrite (take_ok EmptyString) by (intros s H; apply (state_bound x n Hp); exact H); cbn [bind]; f_equal.
      unfold table_blocks, steady_rows, state_rows, shock_rows, state_pair_rows, cross_rows, shock_pair_rows, risk_rows, pairs, printed, n_shocks; cbn [concat].
      rewrite !map_app; cbn [map fst app]; rewrite !map_map; cbn [fst].
      assert (ST : stoch = map (shock_name stoch) (seq 0 k)) by (symmetry; apply map_nth_seq).
      rewrite ST at 1 2 3 4; rewrite !list_prod_map, !map_map; cbn [fst snd].
      fold k; rewrite ?app_nil_r; reflexivity. }
    rewrite LAB; cbn [bind]; unfold take_mask.
    assert (LEN : List.length (concat masks) = List.length (concat table_blocks)).
    { clear; generalize masks_fit; generalize masks table_blocks; induction 1; [reflexivity|]; cbn [concat]; rewrite !app_length; congruence. }
    rewrite map_length, LEN, Nat.eqb_refl; cbn [bind].
    assert (SZ : map (fun m : nat * list (list F) => List.length (snd m)) 
       [(n, [map (fun v => nth v ss (r0 O)) (dr_order x)] ++ map (fun s => map (fun i => cy (nth i (dr_order x) 0) s) (seq 0 n)) (members is_state x));
        (n, map (fun j => map (fun i => cu (nth i (dr_order x) 0) j) (seq 0 n)) (seq 0 k));
        (n, map (fun p => map (fun i => cyy (nth i (dr_order x) 0) (fst p) (snd p)) (seq 0 n)) (list_prod (members is_state x) (members is_state x)));
        (n, map (fun p => map (fun i => cyu (nth i (dr_order x) 0) (nth (position (fst p) (members is_state x)) (dr_states x) 0) (snd p)) (seq 0 n)) (list_prod (members is_state x) (seq 0 k)));
        (n, map (fun j => map (fun i => cuu (nth i (dr_order x) 0) (j / k) (j mod k)) (seq 0 n)) (seq 0 (k * k)));
        (n, map (fun _ : nat => map (fun i => cr (nth i (dr_order x) 0)) (seq 0 n)) (seq 0 1))] = map (@List.length _) table_blocks).
    { unfold table_blocks, steady_rows, state_rows, shock_rows, state_pair_rows, cross_rows, shock_pair_rows, risk_rows, pairs, n_shocks; cbn [map snd app List.length]; fold k.
      rewrite !map_length, !prod_length, !seq_length; reflexivity. }
    cbn [map snd] in SZ |- *; rewrite SZ; clear SZ.
    assert (CMB : combine (select (concat masks) (map fst (concat table_blocks))) (map Values (map (values_of F) (concat kept_blocks))) = select (concat masks) (concat table_blocks)).
    { rewrite <- masks_select, <- selects_concat by apply masks_fit; rewrite select_map, map_map, combine_map_same.
      rewrite <- map_id; apply map_ext_in; intros r Hr.
      assert (R : is_row r).
      { apply rows_rows; clear -Hr; revert Hr; generalize (concat masks) (concat table_blocks); intros m; induction m as [|b m IH]; intros [|a l] H; cbn in H; try contradiction.
        destruct b; [destruct H as [<-|H]; [left; reflexivity|]|]; right; apply IH; exact H. }
      destruct (is_row_values r R) as [E _]; rewrite <- E; destruct r; reflexivity. }
    rewrite CMB; change (string * line F)%type with (trow F) in *; rewrite (select_tag (A := trow F)), masks_select by apply masks_fit.
    unfold second_table; cbn [app]; do 2 f_equal.
    cbn [seq map]; rewrite !tag_block by lia; cbn [Nat.sub nth kept_blocks Nat.ltb Nat.leb].
    cbn [steady_rows app risk_rows concat]; unfold block; rewrite ?app_nil_r.
    repeat (match goal with |- context [match ?l with [] => [] | _ => _ end] => destruct l end); cbn [app]; rewrite <- ?app_assoc; cbn [app]; reflexivity.
  Qed.
End Second.
