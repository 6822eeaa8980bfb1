(** Columns and masks in decision-rule order. *)
From Verif Require Import Base Nd NdProofs Mat MatProofs SimSpec Syntax Eval Semantics Factory Indexing IndexingSpec IndexingProofs IndexingProofs2 SummaryProofs Moments
  FirstOrder FirstOrderSpec FirstOrderProofs SecondOrder SecondOrderSpec.

Lemma not_nan_filter (g : nat -> option nat) l :
  not_nan (map g l) = map (fun v => match g v with Some j => j | None => 0 end) (filter (fun v => negb (isnan (g v))) l).
Proof. induction l as [|a l IH]; [reflexivity|]; cbn [map not_nan filter]; destruct (g a) as [j|] eqn:E; cbn [isnan negb map]; rewrite ?E, IH; reflexivity. Qed.
Lemma where_app m m' i : where_ (m ++ m') i = where_ m i ++ where_ m' (i + List.length m).
Proof.
  revert i; induction m as [|[] m IH]; intros i; cbn [app where_ List.length]; [rewrite Nat.add_0_r; reflexivity| |]; rewrite IH, <- Nat.add_succ_comm; reflexivity.
Qed.
Lemma where_true n i : where_ (repeat true n) i = seq i n.
Proof. revert i; induction n as [|n IH]; intros i; [reflexivity|]; cbn [repeat where_ seq]; rewrite IH; reflexivity. Qed.
Lemma where_false n i : where_ (repeat false n) i = [].
Proof. revert i; induction n as [|n IH]; intros i; [reflexivity|]; cbn [repeat where_]; apply IH. Qed.
Lemma count_app m m' : count_true (m ++ m') = count_true m + count_true m'.
Proof. unfold count_true; rewrite filter_app, app_length; reflexivity. Qed.
Lemma count_repeat b n : count_true (repeat b n) = if b then n else 0.
Proof. unfold count_true; induction n as [|n IH]; [destruct b; reflexivity|]; cbn [repeat filter]; destruct b; cbn [List.length]; rewrite IH; reflexivity. Qed.

Section Index.
  Variable L : list (list Z).
  Variable k : nat.
  Hypothesis all0 : forall i, i < List.length L -> at_k L i 0 = true.
  Let X := array L k.
  Let n := List.length L.
  Let T := List.length (timed_vars L).
  Let ns := List.length (St L).
  Let nt := List.length (PB L) + List.length (MX L).
  Let nf := List.length (MX L) + List.length (PF L).
  Local Notation col := (column L k).

  Lemma row_dr kk : (-1 <= kk <= 1)%Z -> row_at (dr X) kk = map (fun v => nth v (row_at X kk) None) (order L).
  Proof.
    intros _; unfold row_at, dr; cbn [row_m row_0 row_p]; unfold permuted, X; rewrite (order_is L k all0); destruct (kk =? -1)%Z, (kk =? 0)%Z; reflexivity.
  Qed.
  Lemma not_nan_dr kk M : (-1 <= kk <= 1)%Z -> filter (fun v => at_k L v kk) (order L) = M -> not_nan (row_at (dr X) kk) = map (col kk) M.
  Proof.
    intros Hk <-; rewrite row_dr by exact Hk; rewrite not_nan_filter; unfold column; fold X; f_equal.
    apply filter_ext_in; intros v Hv; apply (order_in L k all0) in Hv; unfold X; rewrite (isnan_at L k kk v Hv Hk); apply negb_involutive.
  Qed.
  Lemma present_dr kk : (-1 <= kk <= 1)%Z -> present (row_at (dr X) kk) = map (fun v => at_k L v kk) (order L).
  Proof.
    intros Hk; rewrite row_dr by exact Hk; unfold present; rewrite map_map; apply map_ext_in; intros v Hv.
    apply (order_in L k all0) in Hv; unfold X; rewrite (isnan_at L k kk v Hv Hk); apply negb_involutive.
  Qed.
  Lemma cls (c : nat -> bool) v : In v (members_of L c) -> c v = true.
  Proof. intros H; apply (member_bound L _ v H). Qed.
  Lemma lag_filter : filter (fun v => at_k L v (-1)) (order L) = PB L ++ MX L.
  Proof.
    unfold order; rewrite !filter_app.
    rewrite (filter_none _ (St L)), (filter_all _ (PB L)), (filter_all _ (MX L)), (filter_none _ (PF L)), app_nil_r; [reflexivity| | | |];
      intros v Hv; apply cls in Hv; unfold static, pure_backward, mixed, pure_forward in Hv; destruct (at_k L v (-1)); cbn in Hv |- *; congruence.
  Qed.
  Lemma lead_filter : filter (fun v => at_k L v 1) (order L) = MX L ++ PF L.
  Proof.
    unfold order; rewrite !filter_app.
    rewrite (filter_none _ (St L)), (filter_none _ (PB L)), (filter_all _ (MX L)), (filter_all _ (PF L)); [reflexivity| | | |];
      intros v Hv; apply cls in Hv; unfold static, pure_backward, mixed, pure_forward in Hv; destruct (at_k L v (-1)), (at_k L v 1); cbn in Hv |- *; congruence.
  Qed.
  Lemma now_filter : filter (fun v => at_k L v 0) (order L) = order L.
  Proof. apply filter_all; intros v Hv; apply all0, (order_in L k all0), Hv. Qed.
  Lemma not_nan_lag : not_nan (row_m (dr X)) = map (col (-1)) (PB L ++ MX L).
  Proof. exact (not_nan_dr (-1) _ ltac:(lia) lag_filter). Qed.
  Lemma not_nan_now : not_nan (row_0 (dr X)) = map (col 0) (order L).
  Proof. exact (not_nan_dr 0 _ ltac:(lia) now_filter). Qed.
  Lemma not_nan_lead : not_nan (row_p (dr X)) = map (col 1) (MX L ++ PF L).
  Proof. exact (not_nan_dr 1 _ ltac:(lia) lead_filter). Qed.
  Lemma map_const {A} (f : nat -> A) b l : (forall v, In v l -> f v = b) -> map f l = repeat b (List.length l).
  Proof. induction l as [|a l IH]; intros H; [reflexivity|]; cbn; rewrite H by (left; reflexivity); rewrite IH by (intros v Hv; apply H; right; exact Hv); reflexivity. Qed.
  Lemma order_length : List.length (order L) = n.
  Proof. rewrite (Permutation_length (order_perm L k all0)); apply seq_length. Qed.
  Lemma present_now : present (row_0 (dr X)) = repeat true n.
  Proof.
    change (row_0 (dr X)) with (row_at (dr X) 0); rewrite present_dr by lia; rewrite (map_const _ true), order_length; [reflexivity|].
    intros v Hv; apply all0, (order_in L k all0), Hv.
  Qed.
  Lemma size_split : ns + List.length (PB L) + nf = n /\ ns + nt <= n /\ nf <= n.
  Proof. pose proof (sizes L k all0) as E; fold n in E; unfold ns, nt, nf; lia. Qed.
  Lemma present_lead : present (row_p (dr X)) = repeat false (n - nf) ++ repeat true nf.
  Proof.
    change (row_p (dr X)) with (row_at (dr X) 1); rewrite present_dr by lia; unfold order; rewrite app_assoc, map_app; f_equal.
    - rewrite (map_const _ false), app_length; [f_equal; pose proof size_split; unfold ns in *; lia|].
      intros v Hv; apply in_app_iff in Hv as [Hv|Hv]; apply cls in Hv; unfold static, pure_backward in Hv; destruct (at_k L v (-1)), (at_k L v 1); cbn in Hv; congruence.
    - rewrite (map_const _ true), app_length; [reflexivity|].
      intros v Hv; apply in_app_iff in Hv as [Hv|Hv]; apply cls in Hv; unfold mixed, pure_forward in Hv; destruct (at_k L v (-1)), (at_k L v 1); cbn in Hv; congruence.
  Qed.
  Lemma where_lead : where_ (present (row_p (dr X))) 0 = seq (n - nf) nf.
  Proof. rewrite present_lead, where_app, where_false, where_true, repeat_length; reflexivity. Qed.
  Lemma count_lead : count_true (present (row_p (dr X))) = nf.
  Proof. rewrite present_lead, count_app, !count_repeat; reflexivity. Qed.
  Lemma length_lead : List.length (present (row_p (dr X))) = n.
  Proof. rewrite present_lead, app_length, !repeat_length; pose proof size_split; lia. Qed.
  Lemma n_state_is : n_state X = nt.
  Proof. exact (n_backward_is L k all0). Qed.

  (** ** Columns of the Jacobian *)
  Definition timed_columns : list nat := map (col (-1)) (PB L ++ MX L) ++ map (col 0) (order L) ++ map (col 1) (MX L ++ PF L).
  Lemma not_nan_app a b : not_nan (a ++ b) = not_nan a ++ not_nan b.
  Proof. induction a as [|[j|] a IH]; cbn [app not_nan]; rewrite ?IH; reflexivity. Qed.
  Lemma timed_columns_is : not_nan (row_m (dr X) ++ row_0 (dr X) ++ row_p (dr X)) = timed_columns.
  Proof. rewrite !not_nan_app, not_nan_lag, not_nan_now, not_nan_lead; reflexivity. Qed.
  Lemma lag_at v : In v (PB L ++ MX L) -> v < n /\ at_k L v (-1) = true.
  Proof. rewrite <- lag_filter, filter_In; intros [H G]; split; [apply (order_in L k all0), H|exact G]. Qed.
  Lemma lead_at v : In v (MX L ++ PF L) -> v < n /\ at_k L v 1 = true.
  Proof. rewrite <- lead_filter, filter_In; intros [H G]; split; [apply (order_in L k all0), H|exact G]. Qed.
  Lemma now_at v : In v (order L) -> v < n /\ at_k L v 0 = true.
  Proof. intros H; apply (order_in L k all0) in H; split; [exact H|apply all0, H]. Qed.
  Lemma nodup_order : NoDup (order L).
  Proof. exact (Permutation_NoDup (Permutation_sym (order_perm L k all0)) (seq_NoDup _ _)). Qed.
  Lemma col_spec kk M v : (-1 <= kk <= 1)%Z -> (forall v, In v M -> v < n /\ at_k L v kk = true) -> In v M -> nth_error (timed_vars L) (col kk v) = Some (v, kk).
  Proof. intros Hk HM Hv; destruct (HM v Hv); apply (column_spec L k); assumption. Qed.
  Lemma nodup_cols kk M : (-1 <= kk <= 1)%Z -> (forall v, In v M -> v < n /\ at_k L v kk = true) -> NoDup M -> NoDup (map (col kk) M).
  Proof.
    intros Hk HM ND; induction M as [|v M IH]; [constructor|]; inversion ND as [|? ? Nv ND']; subst; cbn [map]; constructor.
    - intros H; apply in_map_iff in H as (v' & E & Hv'); apply Nv.
      pose proof (col_spec kk _ v Hk HM (or_introl eq_refl)) as A; pose proof (col_spec kk _ v' Hk HM (or_intror Hv')) as B.
      rewrite E, A in B; injection B as ->; exact Hv'.
    - apply IH; [intros v' Hv'; apply HM; right; exact Hv'|exact ND'].
  Qed.
  Lemma col_back kk M c : (-1 <= kk <= 1)%Z -> (forall v, In v M -> v < n /\ at_k L v kk = true) -> In c (map (col kk) M) ->
    exists v, In v M /\ nth_error (timed_vars L) c = Some (v, kk).
  Proof. intros Hk HM H; apply in_map_iff in H as (v & <- & Hv); exists v; split; [exact Hv|apply (col_spec kk M); assumption]. Qed.
  Lemma nodup_app {A} (a b : list A) : NoDup a -> NoDup b -> (forall x, In x a -> In x b -> False) -> NoDup (a ++ b).
  Proof.
    induction a as [|x a IH]; intros Ha Hb H; [exact Hb|]; inversion Ha; subst; cbn [app]; constructor.
    - rewrite in_app_iff; intros [G|G]; [contradiction|apply (H x); [left; reflexivity|exact G]].
    - apply IH; try assumption; intros y Hy; apply H; right; exact Hy.
  Qed.
  Lemma timed_perm : Permutation timed_columns (seq 0 T).
  Proof.
    unfold timed_columns; apply NoDup_Permutation; [|apply seq_NoDup|].
    - assert (Nl : NoDup (PB L ++ MX L)) by (rewrite <- lag_filter; apply NoDup_filter, nodup_order).
      assert (Nf : NoDup (MX L ++ PF L)) by (rewrite <- lead_filter; apply NoDup_filter, nodup_order).
      apply nodup_app; [apply nodup_cols; [lia|exact lag_at|exact Nl]|apply nodup_app; [apply nodup_cols; [lia|exact now_at|exact nodup_order]|apply nodup_cols; [lia|exact lead_at|exact Nf]|]|].
      + intros c A B; apply (col_back 0 _ c ltac:(lia) now_at) in A as (v & _ & A); apply (col_back 1 _ c ltac:(lia) lead_at) in B as (v' & _ & B); congruence.
      + intros c A B; apply (col_back (-1) _ c ltac:(lia) lag_at) in A as (v & _ & A); apply in_app_iff in B as [B|B].
        * apply (col_back 0 _ c ltac:(lia) now_at) in B as (v' & _ & B); congruence.
        * apply (col_back 1 _ c ltac:(lia) lead_at) in B as (v' & _ & B); congruence.
    - intros c; rewrite !in_app_iff, in_seq; split.
      + assert (B : forall v kk, nth_error (timed_vars L) c = Some (v, kk) -> 0 <= c < 0 + T) by (intros v kk E; split; [lia|apply nth_error_Some; rewrite E; discriminate]).
        intros [H|[H|H]]; [apply (col_back (-1) _ c ltac:(lia) lag_at) in H|apply (col_back 0 _ c ltac:(lia) now_at) in H|apply (col_back 1 _ c ltac:(lia) lead_at) in H];
          destruct H as (v & _ & E); exact (B _ _ E).
      + intros [_ H]; destruct (nth_error (timed_vars L) c) as [[v kk]|] eqn:E; [|apply nth_error_None in E; unfold T in H; lia].
        pose proof (nth_error_In _ _ E) as I; unfold timed_vars in I; apply in_flat_map in I as (kk' & Ik & I); apply in_map_iff in I as (v' & E' & I).
        injection E' as -> ->; apply filter_In in I as [Iv Ia]; apply in_seq in Iv.
        assert (Io : In v (order L)) by (apply (Permutation_in _ (Permutation_sym (order_perm L k all0))), in_seq; exact Iv).
        cbn [In] in Ik; destruct Ik as [<-|[<-|[<-|[]]]].
        * left; rewrite <- (column_unique L k (-1) v c ltac:(lia) E); apply in_map; rewrite <- lag_filter; apply filter_In; split; assumption.
        * right; left; rewrite <- (column_unique L k 0 v c ltac:(lia) E); apply in_map; exact Io.
        * right; right; rewrite <- (column_unique L k 1 v c ltac:(lia) E); apply in_map; rewrite <- lead_filter; apply filter_In; split; assumption.
  Qed.
  Lemma timed_length : List.length timed_columns = T /\ T = nt + (n + nf).
  Proof.
    pose proof (Permutation_length timed_perm) as E; rewrite seq_length in E; split; [exact E|]; rewrite <- E; unfold timed_columns.
    rewrite !app_length, !map_length, !app_length, order_length; reflexivity.
  Qed.
  Lemma dr_columns_is : dr_columns X = timed_columns ++ seq T k.
  Proof. unfold dr_columns; rewrite timed_columns_is, (proj1 timed_length); reflexivity. Qed.
  Lemma dr_perm : Permutation (dr_columns X) (seq 0 (T + k)).
  Proof. rewrite dr_columns_is, seq_app; apply Permutation_app; [exact timed_perm|reflexivity]. Qed.
  Lemma width_is : width X = T + k.
  Proof. unfold width; rewrite (Permutation_length dr_perm); apply seq_length. Qed.
End Index.
