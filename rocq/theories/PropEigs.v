(** Sorted eigenvalues: property C104. *)
From Verif Require Import Base Eigs EigsSpec.
From Coq Require Import ZArith Permutation Lia.
Local Open Scope string_scope.
Local Open Scope list_scope.
Local Open Scope nat_scope.

Section C104.
  Variable M V F : Type.
  Variable eigvals : M -> res (list V).
  Variable absolute : V -> F.
  Variable argsort : list F -> list nat.
  Variable le : F -> F -> Prop.
  Hypothesis HS : sorts F le argsort.
  Notation eigvals_sorted := (Eigs.eigvals_sorted M V F eigvals absolute argsort).
  Notation largest := (first_of V (not_below V F le absolute)).
  Notation smallest := (first_of V (not_above V F le absolute)).

  Lemma taken (l : list V) : forall idx, (forall i, In i idx -> i < List.length l) ->
    exists out, mapM (at_index V l) idx = Ok out /\ map Some out = map (nth_error l) idx.
  Proof using.
    induction idx as [|i idx IH]; intros H; [exists []; split; reflexivity|].
    destruct (IH (fun j Hj => H j (or_intror Hj))) as (out & E1 & E2).
    destruct (nth_error l i) as [v|] eqn:E; [|apply nth_error_None in E; specialize (H i (or_introl eq_refl)); lia].
    exists (v :: out); cbn [mapM map]; unfold at_index at 1; rewrite E; cbn; rewrite E1, E2; split; reflexivity.
  Qed.
  Lemma some_perm (a b : list V) : Permutation (map Some a) (map Some b) -> Permutation a b.
  Proof using.
    intros H; destruct (Permutation_map_inv _ _ H) as (c & E & P).
    assert (Q : a = c) by (clear -E; revert c E; induction a as [|x a IH]; intros [|y c] E; cbn in E; try discriminate; [reflexivity|injection E as -> E; f_equal; apply IH, E]).
    subst c; symmetry; exact P.
  Qed.
  Lemma all_some (l : list V) : map (nth_error l) (seq 0 (List.length l)) = map Some l.
  Proof using.
    induction l as [|x l IH]; [reflexivity|]; cbn [List.length seq map nth_error]; f_equal; rewrite <- IH, <- seq_shift, map_map; reflexivity.
  Qed.
  Lemma kept (R : V -> V -> Prop) n (all l : list V) : Permutation all l -> in_order V R l -> first_of V R (Nat.min n (List.length all)) all (firstn n l).
  Proof using.
    intros P H; split; [rewrite firstn_length, (Permutation_length P); reflexivity|]; split.
    - intros i j x y Hij Hx Hy.
      assert (G : forall k v, nth_error (firstn n l) k = Some v -> nth_error l k = Some v).
      { intros k v E; rewrite <- (firstn_skipn n l); rewrite nth_error_app1; [exact E|apply nth_error_Some; congruence]. }
      exact (H i j x y Hij (G _ _ Hx) (G _ _ Hy)).
    - exists (skipn n l); rewrite firstn_skipn; split; [exact P|]; intros x y Hx Hy.
      apply In_nth_error in Hx as [i Hi]; apply In_nth_error in Hy as [j Hj].
      pose proof (proj1 (nth_error_Some (firstn n l) i) ltac:(congruence)) as Li.
      apply (H i (List.length (firstn n l) + j) x y); [lia| |].
      + rewrite <- (firstn_skipn n l), nth_error_app1; assumption.
      + rewrite <- (firstn_skipn n l) at 1; rewrite nth_error_app2 by lia; replace (_ + j - _) with j by lia; exact Hj.
  Qed.
  Lemma cut k (all l : list V) R : Permutation all l -> in_order V R l -> first_of V R (wanted k (List.length all)) all (match k with None => l | Some k => upto V k l end).
  Proof using.
    intros P H; pose proof (Permutation_length P) as L; destruct k as [k|]; unfold wanted.
    - unfold upto; destruct (k <? 0)%Z eqn:E.
      + replace (Z.to_nat (Z.of_nat (List.length l) + k)) with (List.length all - Z.to_nat (- k)) by (apply Z.ltb_lt in E; lia).
        replace (List.length all - Z.to_nat (- k)) with (Nat.min (List.length all - Z.to_nat (- k)) (List.length all)) at 1 by lia; apply kept; assumption.
      + apply kept; assumption.
    - replace (List.length all) with (Nat.min (List.length all) (List.length all)) at 1 by lia.
      rewrite <- (firstn_all l); rewrite <- L; apply kept; assumption.
  Qed.

  Lemma sorted_up all : exists out, mapM (at_index V all) (argsort (map absolute all)) = Ok out /\ Permutation all out /\ in_order V (not_above V F le absolute) out.
  Proof using HS.
    destruct (HS (map absolute all)) as [P S]; rewrite map_length in P.
    destruct (taken all (argsort (map absolute all))) as (out & E1 & E2).
    { intros i Hi; apply (Permutation_in _ (Permutation_sym P)), in_seq in Hi; lia. }
    exists out; split; [exact E1|]; split.
    - apply some_perm; rewrite E2, <- all_some; apply Permutation_map, P.
    - intros i j x y Hij Hx Hy; unfold not_above.
      assert (G : forall k v, nth_error out k = Some v -> exists a, nth_error (argsort (map absolute all)) k = Some a /\ nth_error (map absolute all) a = Some (absolute v)).
      { intros k v E; apply (map_nth_error Some) in E; rewrite E2 in E.
        destruct (nth_error (argsort (map absolute all)) k) as [a|] eqn:Ea.
        - rewrite (map_nth_error (nth_error all) _ _ Ea) in E; injection E as E; exists a; split; [reflexivity|apply map_nth_error, E].
        - apply nth_error_None in Ea; assert (nth_error (map (nth_error all) (argsort (map absolute all))) k = None) by (apply nth_error_None; rewrite map_length; exact Ea); congruence. }
      destruct (G i x Hx) as (a & A1 & A2); destruct (G j y Hy) as (b & B1 & B2); exact (S i j a b _ _ Hij A1 B1 A2 B2).
  Qed.
  Lemma mapM_rev (l : list V) idx : forall out, mapM (at_index V l) idx = Ok out -> mapM (at_index V l) (rev idx) = Ok (rev out).
  Proof using.
    intros out H; apply mapM_ok in H; apply mapM_ok; induction H as [|a b idx out Ha H IH]; [constructor|].
    cbn [rev]; apply Forall2_app; [exact IH|constructor; [exact Ha|constructor]].
  Qed.
  Lemma order_rev (R : V -> V -> Prop) l : in_order V R l -> in_order V (fun x y => R y x) (rev l).
  Proof using.
    intros H i j x y Hij Hx Hy.
    assert (G : forall k v, nth_error (rev l) k = Some v -> k < List.length l /\ nth_error l (List.length l - S k) = Some v).
    { intros k v E; pose proof (proj1 (nth_error_Some (rev l) k) ltac:(congruence)) as Lk; rewrite rev_length in Lk; split; [exact Lk|].
      rewrite (nth_error_nth' _ v) in E by (rewrite rev_length; exact Lk); rewrite rev_nth in E by exact Lk.
      rewrite (nth_error_nth' _ v) by lia; exact E. }
    destruct (G i x Hx) as [Li Ei]; destruct (G j y Hy) as [Lj Ej]; apply (H (List.length l - S j) (List.length l - S i)); [lia|exact Ej|exact Ei].
  Qed.

  (** For every matrix and number [k]: the values asked for are the eigenvalues of largest
      magnitude, from the largest on, or those of smallest magnitude, from the smallest on, each as often as it is
      an eigenvalue; another order is refused before anything is computed, and what the
      computation of the eigenvalues raises is raised. *)
  Theorem C104_sorted : forall (A : M) (k : option Z),
    (forall order, order <> "descending" -> order <> "ascending" -> eigvals_sorted A order k = Err ValueErr) /\
    (forall e order, eigvals A = Err e -> order = "descending" \/ order = "ascending" -> eigvals_sorted A order k = Err e) /\
    (forall all, eigvals A = Ok all ->
      (exists out, eigvals_sorted A "descending" k = Ok out /\ largest (wanted k (List.length all)) all out) /\
      (exists out, eigvals_sorted A "ascending" k = Ok out /\ smallest (wanted k (List.length all)) all out)).
  Proof using HS.
    intros A k; split; [|split].
    - intros order H1 H2; unfold Eigs.eigvals_sorted; apply String.eqb_neq in H1, H2; rewrite H1, H2; reflexivity.
    - intros e order He Ho; unfold Eigs.eigvals_sorted; rewrite He; destruct Ho as [->| ->]; reflexivity.
    - intros all Ha; destruct (sorted_up all) as (out & E & P & S); unfold Eigs.eigvals_sorted; rewrite Ha; cbn; split.
      + rewrite (mapM_rev _ _ _ E); cbn; eexists; split; [reflexivity|].
        apply cut; [rewrite P; apply Permutation_rev|exact (order_rev _ _ S)].
      + rewrite E; cbn; eexists; split; [reflexivity|]; apply cut; assumption.
  Qed.
End C104.
Print Assumptions C104_sorted.

(** ** A concrete routine *)
Fixpoint put (l : list Z) (i : nat) (o : list nat) : list nat :=
  match o with [] => [i] | j :: o' => if (nth i l 0 <=? nth j l 0)%Z then i :: o else j :: put l i o' end.
Definition z_argsort (l : list Z) : list nat := fold_right (put l) [] (seq 0 (List.length l)).
Lemma put_perm l i o : Permutation (i :: o) (put l i o).
Proof.
  induction o as [|j o IH]; cbn [put]; [reflexivity|]; destruct (_ <=? _)%Z; [reflexivity|]; rewrite perm_swap, IH; reflexivity.
Qed.
Inductive rising (l : list Z) : list nat -> Prop :=
  | R_nil : rising l []
  | R_cons i o : (forall j, In j o -> (nth i l 0 <= nth j l 0)%Z) -> rising l o -> rising l (i :: o).
Lemma put_rising l i o : rising l o -> rising l (put l i o).
Proof.
  induction 1 as [|j o Hj Ho IH]; cbn [put]; [constructor; [intros ? []|constructor]|].
  destruct (nth i l 0 <=? nth j l 0)%Z eqn:E.
  - apply Z.leb_le in E; constructor; [|constructor; assumption]; intros k [<-|Hk]; [exact E|specialize (Hj k Hk); lia].
  - apply Z.leb_gt in E; constructor; [|exact IH]; intros k Hk; apply (Permutation_in _ (Permutation_sym (put_perm l i o))) in Hk; destruct Hk as [<-|Hk]; [lia|exact (Hj k Hk)].
Qed.
Lemma z_sorts : sorts Z Z.le z_argsort.
Proof.
  intros l; unfold z_argsort; split.
  - induction (seq 0 (List.length l)) as [|i o IH]; [reflexivity|]; cbn [fold_right]; rewrite <- put_perm, <- IH; reflexivity.
  - assert (R : rising l (fold_right (put l) [] (seq 0 (List.length l)))) by (induction (seq 0 (List.length l)); [constructor|apply put_rising; assumption]).
    induction R as [|i o Hi R IH]; intros p q a b x y Hpq Ha Hb Hx Hy; [destruct p; discriminate|].
    destruct q as [|q]; [lia|]; destruct p as [|p]; cbn in Ha, Hb; [|exact (IH p q a b x y ltac:(lia) Ha Hb Hx Hy)].
    injection Ha as <-; specialize (Hi b (nth_error_In _ _ Hb)).
    rewrite (nth_error_nth _ _ 0%Z Hx), (nth_error_nth _ _ 0%Z Hy) in Hi; exact Hi.
Qed.
(** Eigenvalues 2, -3, 1, 2 of a diagonal matrix, given as its diagonal. *)
Definition z_eigs := Eigs.eigvals_sorted (list Z) Z Z Ok Z.abs z_argsort.
Definition z_diagonal : list Z := [2; -3; 1; 2]%Z.
Example C104_nonvacuous : sorts Z Z.le z_argsort /\
  z_eigs z_diagonal "descending" (Some 3%Z) = Ok [-3; 2; 2]%Z /\ z_eigs z_diagonal "descending" (Some (-3)%Z) = Ok [-3]%Z /\
  z_eigs z_diagonal "ascending" None = Ok [1; 2; 2; -3]%Z /\ z_eigs z_diagonal "ascending" (Some 9%Z) = Ok [1; 2; 2; -3]%Z /\ z_eigs z_diagonal "up" None = Err ValueErr /\
  first_of Z (not_below Z Z Z.le Z.abs) 3 z_diagonal [-3; 2; 2]%Z.
Proof.
  split; [exact z_sorts|]; do 5 (split; [reflexivity|]).
  destruct (C104_sorted (list Z) Z Z Ok Z.abs z_argsort Z.le z_sorts z_diagonal (Some 3%Z)) as (_ & _ & S).
  destruct (S z_diagonal eq_refl) as [(out & E & L) _]; cbn in E; injection E as <-; exact L.
Qed.
