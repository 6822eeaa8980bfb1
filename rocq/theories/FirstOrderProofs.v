(** Columns of the Jacobian in decision-rule order. *)
From Verif Require Import Base Nd NdProofs Mat MatProofs SimSpec Syntax Eval Semantics Factory Indexing IndexingSpec IndexingProofs IndexingProofs2 SummaryProofs FirstOrder FirstOrderSpec.

Lemma mask3_map p {A} (f g h : A -> option nat) l : mask3 p (map f l) (map g l) (map h l) = map (fun v => p (f v) (g v) (h v)) l.
Proof. induction l as [|a l IH]; [reflexivity|]; cbn; rewrite IH; reflexivity. Qed.
Lemma select_map_filter {A B} (f : A -> bool) (g : A -> B) l : select (map f l) (map g l) = map g (filter f l).
Proof. rewrite select_map, select_filter_map; reflexivity. Qed.
Lemma not_nan_map (g : nat -> option nat) l : (forall v, In v l -> g v <> None) -> not_nan (map g l) = map (fun v => match g v with Some j => j | None => 0 end) l.
Proof.
  induction l as [|a l IH]; intros H; [reflexivity|]; cbn [map not_nan].
  destruct (g a) as [j|] eqn:E; [|exfalso; apply (H a); [left; reflexivity|exact E]].
  rewrite IH by (intros v Hv; apply H; right; exact Hv); reflexivity.
Qed.
Lemma NoDup_app_left {A} (l l' : list A) : NoDup (l ++ l') -> NoDup l.
Proof.
  induction l as [|a l IH]; intros H; [constructor|]; cbn [app] in H; apply NoDup_cons_iff in H as [Ha H]; constructor; [|exact (IH H)].
  intros G; apply Ha, in_app_iff; left; exact G.
Qed.
Lemma filter_all {A} (f : A -> bool) l : (forall v, In v l -> f v = true) -> filter f l = l.
Proof.
  induction l as [|a l IH]; intros H; [reflexivity|]; cbn [filter]; rewrite H by (left; reflexivity).
  rewrite IH by (intros v Hv; apply H; right; exact Hv); reflexivity.
Qed.
Lemma filter_none {A} (f : A -> bool) l : (forall v, In v l -> f v = false) -> filter f l = [].
Proof.
  induction l as [|a l IH]; intros H; [reflexivity|]; cbn [filter]; rewrite H by (left; reflexivity).
  apply IH; intros v Hv; apply H; right; exact Hv.
Qed.

Lemma row_of_at x k : (-1 <= k <= 1)%Z -> row_of x k = Ok (row_at x k).
Proof.
  intros H; unfold row_of, row_at; destruct (Z.eqb_spec k (-1)), (Z.eqb_spec k 0), (Z.eqb_spec k 1); try reflexivity; lia.
Qed.
Lemma timed_dr p x k : (-1 <= k <= 1)%Z ->
  timed p (dr x) k = Ok (not_nan (map (fun v => nth v (row_at x k) None)
    (filter (fun v => p (nth v (row_m x) None) (nth v (row_0 x) None) (nth v (row_p x) None)) (dr_order x)))).
Proof.
  intros H; unfold timed; rewrite row_of_at by exact H; cbn [bind]; f_equal; f_equal.
  unfold mask, dr; cbn [row_m row_0 row_p]; unfold permuted; rewrite mask3_map.
  rewrite <- select_map_filter; f_equal.
  unfold row_at; cbn [row_m row_0 row_p]; destruct (k =? -1)%Z, (k =? 0)%Z; reflexivity.
Qed.

Section Columns.
  Variable L : list (list Z).
  Variable k : nat.
  Hypothesis all0 : forall i, i < List.length L -> at_k L i 0 = true.
  Let X := array L k.
  Let n := List.length L.
  Definition St := members_of L (static L).
  Definition PB := members_of L (pure_backward L).
  Definition MX := members_of L (mixed L).
  Definition PF := members_of L (pure_forward L).
  Definition order := St ++ PB ++ MX ++ PF.

  Definition column (kk : Z) (v : nat) : nat := match nth v (row_at X kk) None with Some j => j | None => 0 end.

  Lemma isnan_at kk v : v < n -> (-1 <= kk <= 1)%Z -> isnan (nth v (row_at X kk) None) = negb (at_k L v kk).
  Proof.
    intros Hv Hk.
    assert (E : forall off, isnan (nth v (fill (brow L kk) off) None) = negb (at_k L v kk)).
    { intros off; change true with (isnan None).
      rewrite <- (map_nth isnan); cbn [isnan]; rewrite isnan_fill.
      rewrite (nth_indep _ true (negb false)) by (unfold brow; rewrite !map_length; exact Hv).
      rewrite (map_nth negb); f_equal; unfold brow, at_k.
      rewrite (nth_indep _ false (existsb (Z.eqb kk) [])) by (rewrite map_length; exact Hv).
      apply (map_nth (existsb (Z.eqb kk))). }
    unfold row_at, X, array; cbn [row_m row_0 row_p].
    destruct (Z.eqb_spec kk (-1)) as [->|]; [apply E|]; destruct (Z.eqb_spec kk 0) as [->|]; [apply E|].
    replace kk with 1%Z in * by lia; apply E.
  Qed.
  Lemma mixed_here : mixed_occur L.
  Proof. intros i Hi _; apply all0; exact Hi. Qed.
  Lemma order_is : dr_order X = order.
  Proof. unfold X; rewrite dr_order_array, (not_fb_pure L mixed_here); reflexivity. Qed.
  Lemma order_perm : Permutation order (seq 0 n).
  Proof. rewrite <- order_is; apply dr_order_perm_iff, mixed_here. Qed.
  Lemma member_bound c v : In v (members_of L c) -> v < n /\ c v = true.
  Proof. unfold members_of; rewrite filter_In, in_seq; intros [H G]; split; [lia|exact G]. Qed.
  Lemma order_in v : In v order -> v < n.
  Proof. intros H; apply (Permutation_in _ order_perm), in_seq in H; lia. Qed.

  Lemma timed_class p q kk M : (forall a b c, p a b c = q (negb (isnan a)) (negb (isnan b)) (negb (isnan c))) -> (-1 <= kk <= 1)%Z ->
    filter (fun v => q (at_k L v (-1)) (at_k L v 0) (at_k L v 1)) order = M -> (forall v, In v M -> at_k L v kk = true) ->
    timed p (dr X) kk = Ok (map (column kk) M).
  Proof.
    intros Hp Hk HM Hin; rewrite timed_dr by exact Hk; f_equal; rewrite order_is.
    assert (E : filter (fun v => p (nth v (row_m X) None) (nth v (row_0 X) None) (nth v (row_p X) None)) order = M).
    { rewrite <- HM; apply filter_ext_in; intros v Hv; apply order_in in Hv; rewrite Hp.
      change (row_m X) with (row_at X (-1)); change (row_0 X) with (row_at X 0); change (row_p X) with (row_at X 1).
      rewrite !isnan_at by (assumption || lia); rewrite !negb_involutive; reflexivity. }
    rewrite E, not_nan_map; [reflexivity|].
    intros v Hv; rewrite <- HM in Hv; pose proof Hv as Hv'; rewrite HM in Hv'; apply filter_In in Hv as [Hv _]; apply order_in in Hv.
    pose proof (isnan_at kk v Hv Hk) as I; rewrite (Hin v Hv') in I; intros N; rewrite N in I; discriminate I.
  Qed.

  (** The four groups of the order. *)
  Ltac cls := unfold St, PB, MX, PF, members_of, static, pure_backward, mixed, pure_forward; intros v Hv; apply filter_In in Hv as [_ Hv];
    repeat match goal with |- context [at_k L v ?z] => destruct (at_k L v z) | H : context [at_k L v ?z] |- _ => destruct (at_k L v z) end; cbn in *; congruence.
  Lemma pick q a b c d :
    ((forall v, In v St -> q (at_k L v (-1)) (at_k L v 0) (at_k L v 1) = a) ->
     (forall v, In v PB -> q (at_k L v (-1)) (at_k L v 0) (at_k L v 1) = b) ->
     (forall v, In v MX -> q (at_k L v (-1)) (at_k L v 0) (at_k L v 1) = c) ->
     (forall v, In v PF -> q (at_k L v (-1)) (at_k L v 0) (at_k L v 1) = d) ->
     filter (fun v => q (at_k L v (-1)) (at_k L v 0) (at_k L v 1)) order =
       (if a then St else []) ++ (if b then PB else []) ++ (if c then MX else []) ++ (if d then PF else [])).
  Proof.
    intros Ha Hb Hc Hd; unfold order; rewrite !filter_app.
    f_equal; [destruct a; [apply filter_all|apply filter_none]; assumption|].
    f_equal; [destruct b; [apply filter_all|apply filter_none]; assumption|].
    f_equal; [destruct c; [apply filter_all|apply filter_none]; assumption|destruct d; [apply filter_all|apply filter_none]; assumption].
  Qed.
  Lemma in_order c v : In v (members_of L c) -> at_k L v 0 = true.
  Proof. intros H; apply all0, (member_bound c v H). Qed.

  Lemma dr_static : timed is_static (dr X) 0 = Ok (map (column 0) St).
  Proof.
    apply (timed_class _ (fun a b c => negb a && negb c)); [intros [] [] []; reflexivity|lia| |intros v Hv; apply (in_order _ v Hv)].
    rewrite (pick (fun a b c => negb a && negb c) true false false false) by cls; cbn [app]; apply app_nil_r.
  Qed.
  Lemma dr_backward kk : kk = 0%Z \/ kk = (-1)%Z -> timed is_backward (dr X) kk = Ok (map (column kk) (PB ++ MX)).
  Proof.
    intros Hk; apply (timed_class _ (fun a b c => a)); [intros [] [] []; reflexivity|lia| |].
    - rewrite (pick (fun a b c => a) false true true false) by cls; cbn [app]; rewrite app_nil_r; reflexivity.
    - intros v Hv; destruct Hk as [-> | ->].
      + apply in_app_iff in Hv as [Hv|Hv]; apply (in_order _ v Hv).
      + apply in_app_iff in Hv as [Hv|Hv]; revert v Hv; cls.
  Qed.
  Lemma dr_forward kk : kk = 0%Z \/ kk = 1%Z -> timed is_forward (dr X) kk = Ok (map (column kk) (MX ++ PF)).
  Proof.
    intros Hk; apply (timed_class _ (fun a b c => c)); [intros [] [] []; reflexivity|lia| |].
    - rewrite (pick (fun a b c => c) false false true true) by cls; reflexivity.
    - intros v Hv; destruct Hk as [-> | ->].
      + apply in_app_iff in Hv as [Hv|Hv]; apply (in_order _ v Hv).
      + apply in_app_iff in Hv as [Hv|Hv]; revert v Hv; cls.
  Qed.
  Lemma dr_pure_backward : timed is_pure_backward (dr X) 0 = Ok (map (column 0) PB).
  Proof.
    apply (timed_class _ (fun a b c => a && negb c)); [intros [] [] []; reflexivity|lia| |intros v Hv; apply (in_order _ v Hv)].
    rewrite (pick (fun a b c => a && negb c) false true false false) by cls; cbn [app]; apply app_nil_r.
  Qed.
  Lemma dr_pure_forward : timed is_pure_forward (dr X) 0 = Ok (map (column 0) PF).
  Proof.
    apply (timed_class _ (fun a b c => negb a && c)); [intros [] [] []; reflexivity|lia| |intros v Hv; apply (in_order _ v Hv)].
    rewrite (pick (fun a b c => negb a && c) false false false true) by cls; reflexivity.
  Qed.
  Lemma dr_dynamic : timed is_dynamic (dr X) 0 = Ok (map (column 0) (PB ++ MX ++ PF)).
  Proof.
    apply (timed_class _ (fun a b c => negb (negb a && negb c))); [intros [] [] []; reflexivity|lia| |].
    - rewrite (pick (fun a b c => negb (negb a && negb c)) false true true true) by cls; reflexivity.
    - intros v Hv; rewrite !in_app_iff in Hv; destruct Hv as [Hv|[Hv|Hv]]; apply (in_order _ v Hv).
  Qed.
  (** The static columns in declaration order. *)
  Lemma dc_static : timed is_static X 0 = Ok (map (column 0) St).
  Proof.
    unfold timed; rewrite row_of_at by lia; cbn [bind]; f_equal.
    change (mask is_static X) with (mask is_static (array L k)); rewrite (mask_array is_static (fun a b c => negb a && negb c)) by (intros [] [] []; reflexivity).
    assert (E : row_at X 0 = map (fun v => nth v (row_at X 0) None) (seq 0 n)).
    { rewrite <- (map_nth_seq None (row_at X 0)) at 1; unfold X; rewrite array_length; reflexivity. }
    rewrite E at 1; clear E.
    assert (E : map (fun ll => negb (existsb (Z.eqb (-1)) ll) && negb (existsb (Z.eqb 1) ll)) L = map (static L) (seq 0 n)).
    { rewrite <- (map_nth_seq [] L) at 1; rewrite map_map; apply map_ext; intros v; reflexivity. }
    rewrite E, select_map_filter; fold (members_of L (static L)); fold St.
    apply not_nan_map; intros v Hv; apply member_bound in Hv as [Hv _]; intros N.
    pose proof (isnan_at 0 v Hv ltac:(lia)) as I; rewrite N, all0 in I by exact Hv; discriminate I.
  Qed.

  (** Sizes. *)
  Lemma backward_perm : Permutation (members_of L (backward L)) (PB ++ MX).
  Proof.
    apply NoDup_Permutation.
    - apply NoDup_filter, seq_NoDup.
    - pose proof (Permutation_NoDup (Permutation_sym order_perm) (seq_NoDup _ _)) as N; unfold order in N.
      apply NoDup_app_r in N; rewrite app_assoc in N; apply NoDup_app_left in N; exact N.
    - intros v; unfold PB, MX, members_of, backward, pure_backward, mixed; rewrite in_app_iff, !filter_In.
      destruct (at_k L v (-1)), (at_k L v 1); cbn; intuition congruence.
  Qed.
  Lemma forward_perm : Permutation (members_of L (forward L)) (MX ++ PF).
  Proof.
    apply NoDup_Permutation.
    - apply NoDup_filter, seq_NoDup.
    - pose proof (Permutation_NoDup (Permutation_sym order_perm) (seq_NoDup _ _)) as N; unfold order in N.
      apply NoDup_app_r in N; apply NoDup_app_r in N; exact N.
    - intros v; unfold PF, MX, members_of, forward, pure_forward, mixed; rewrite in_app_iff, !filter_In.
      destruct (at_k L v (-1)), (at_k L v 1); cbn; intuition congruence.
  Qed.
  Lemma n_backward_is : n_backward X = List.length PB + List.length MX.
  Proof.
    unfold n_backward, X; rewrite (count_array is_backward (fun a b c => a)) by (intros [] [] []; reflexivity).
    rewrite <- app_length, <- (Permutation_length backward_perm); reflexivity.
  Qed.
  Lemma n_forward_is : n_forward X = List.length MX + List.length PF.
  Proof.
    unfold n_forward, X; rewrite (count_array is_forward (fun a b c => c)) by (intros [] [] []; reflexivity).
    rewrite <- app_length, <- (Permutation_length forward_perm); reflexivity.
  Qed.
  Lemma n_mixed_is : n_mixed X = List.length MX.
  Proof. unfold n_mixed, X; rewrite (count_array is_mixed (fun a b c => a && c)) by (intros [] [] []; reflexivity); reflexivity. Qed.
  Lemma n_endog_is : n_endog X = n.
  Proof. unfold n_endog; change (row_m X) with (row_at X (-1)); apply array_length. Qed.
  Lemma sizes : List.length St + (List.length PB + (List.length MX + List.length PF)) = n.
  Proof. pose proof (Permutation_length order_perm) as E; unfold order in E; rewrite !app_length, seq_length in E; exact E. Qed.
  Lemma column_spec kk v : v < n -> (-1 <= kk <= 1)%Z -> at_k L v kk = true -> nth_error (timed_vars L) (column kk v) = Some (v, kk).
  Proof.
    intros Hv Hk Ha; pose proof (isnan_at kk v Hv Hk) as I; rewrite Ha in I; unfold column.
    destruct (nth v (row_at X kk) None) as [j|] eqn:E; [|discriminate I].
    apply (array_entry L k kk v j Hk); fold X; rewrite <- E; apply nth_error_nth'; unfold X; rewrite array_length; exact Hv.
  Qed.
  Lemma column_unique kk v j : (-1 <= kk <= 1)%Z -> nth_error (timed_vars L) j = Some (v, kk) -> column kk v = j.
  Proof.
    intros Hk H; apply (array_entry L k kk v j Hk) in H; fold X in H; unfold column.
    rewrite (nth_error_nth _ _ _ H); reflexivity.
  Qed.
  Lemma column_bound kk v : v < n -> (-1 <= kk <= 1)%Z -> at_k L v kk = true -> column kk v < List.length (timed_vars L).
  Proof. intros Hv Hk Ha; apply nth_error_Some; rewrite column_spec by assumption; discriminate. Qed.
  Lemma n_static_is : 0 < List.length PB + List.length MX -> n_static X = List.length St.
  Proof.
    intros Hb; unfold n_static; change (mask is_static X) with (mask is_static (array L k)); rewrite (mask_array is_static (fun a b c => negb a && negb c)) by (intros [] [] []; reflexivity).
    assert (E : row_0 X = map (fun v => nth v (row_at X 0) None) (seq 0 n)).
    { change (row_0 X) with (row_at X 0); rewrite <- (map_nth_seq None (row_at X 0)) at 1; unfold X; rewrite array_length; reflexivity. }
    rewrite E; clear E.
    assert (E : map (fun ll => negb (existsb (Z.eqb (-1)) ll) && negb (existsb (Z.eqb 1) ll)) L = map (static L) (seq 0 n)).
    { rewrite <- (map_nth_seq [] L) at 1; rewrite map_map; apply map_ext; intros v; reflexivity. }
    rewrite E, select_map_filter; fold (members_of L (static L)); fold St.
    rewrite filter_all; [apply map_length|].
    intros o Ho; apply in_map_iff in Ho as (v & <- & Hv); apply member_bound in Hv as [Hv _].
    destruct (nth v (row_at X 0) None) as [[|j]|] eqn:N; try reflexivity; exfalso.
    assert (C : column 0 v = 0) by (unfold column; rewrite N; reflexivity).
    pose proof (column_spec 0 v Hv ltac:(lia) (all0 v Hv)) as T; rewrite C in T.
    assert (exists b l, members_of L (backward L) = b :: l) as (b & l & Eb).
    { pose proof (Permutation_length backward_perm) as P; rewrite app_length in P; destruct (members_of L (backward L)) as [|b l]; [cbn in P; lia|eauto]. }
    unfold timed_vars in T; cbn [flat_map] in T; unfold members_of, backward in Eb; rewrite Eb in T; cbn in T; congruence.
  Qed.
End Columns.
