(** Statistics of simulated paths: C58 (dropped periods), C59 (sample correlations). *)
From Verif Require Import Base Semantics Nd SimSpec NdProofs OrderProofs Sim NdInst.
From Coq Require Import Ring Field QArith Qcanon.
Local Open Scope nat_scope.

(** C58 *)
Theorem C58_drop F (paths : list (list F)) drop q :
  drop_paths F paths drop = Ok q <->
  (0 <= drop <= Z.of_nat (List.length paths))%Z /\ List.length q = List.length paths - Z.to_nat drop /\
  forall t, t < List.length q -> nth t q [] = nth (Z.to_nat drop + t) paths [].
Proof.
  assert (S : forall k l t, nth t (skipn k l) [] = nth (k + t) l ([] : list F)).
  { induction k as [|k IH]; intros [|x l] t; cbn [skipn Nat.add nth]; try reflexivity; [destruct t; reflexivity|apply IH]. }
  unfold drop_paths, row; destruct (Z.ltb_spec drop 0) as [H|H]; [split; [intros E; discriminate E|intros []; lia]|].
  destruct (Z.ltb_spec (Z.of_nat (List.length paths)) drop) as [H'|H']; [split; [intros E; discriminate E|intros []; lia]|].
  split.
  - intros E; injection E as <-; split; [lia|]; split; [apply skipn_length|]; intros t _; apply S.
  - intros (_ & L & E); f_equal; apply (nth_ext _ _ [] []); [rewrite skipn_length; lia|].
    rewrite skipn_length; intros t Ht; rewrite S; symmetry; apply E; unfold row in *; lia.
Qed.
Theorem C58_reject F (paths : list (list F)) drop :
  ~ (0 <= drop <= Z.of_nat (List.length paths))%Z -> drop_paths F paths drop = Err ValueErr.
Proof.
  intros H; unfold drop_paths, row; destruct (Z.ltb_spec drop 0); [reflexivity|].
  destruct (Z.ltb_spec (Z.of_nat (List.length paths)) drop); [reflexivity|lia].
Qed.
Example C58_nonvacuous : drop_paths Z [[1]; [2]; [3]]%Z 2 = Ok [[3]]%Z.
Proof. reflexivity. Qed.

Section Corr.
  Variable F : Type.
  Variable O : rops F.
  Variable inv : F -> F.
  Variable FT : is_field O inv.
  Variable le : F -> F -> Prop.
  Hypothesis OR : is_ordered O le.
  Let FT' : field_theory (r0 O) (r1 O) (radd O) (rmul O) (rsub O) (ropp O) (rdiv O) inv eq := FT.
  Add Field Ffield7 : FT'.
  Let RT : is_ring O := F_R FT'.
  Variable sqrt : F -> F.
  Notation Sum := (SimSpec.Sum F O).
  Notation value := (SimSpec.value F O).

  (** Sample mean, and sum of products of deviations of two columns, the second [k]
      periods before the first. *)
  Definition sample_mean (p : list (list F)) (j : nat) : F :=
    rdiv O (Sum (List.length p) (fun t => value p t j)) (number O (List.length p)).
  Definition deviation (p : list (list F)) (t j : nat) : F := rsub O (value p t j) (sample_mean p j).
  Definition sample_var (p : list (list F)) (j : nat) : F :=
    rdiv O (Sum (List.length p) (fun t => rmul O (deviation p t j) (deviation p t j))) (number O (List.length p)).

  Lemma centred_eq p t j : centred F O (number O) p t j = deviation p t j.
  Proof using. reflexivity. Qed.
  Lemma variance_eq p j : variance F O (number O) p j = sample_var p j.
  Proof using. reflexivity. Qed.

  Lemma var_parts p j : p <> [] -> sample_var p j <> r0 O ->
    let A := Sum (List.length p) (fun t => rmul O (deviation p t j) (deviation p t j)) in
    A <> r0 O /\ number O (List.length p) <> r0 O /\ le (r0 O) A.
  Proof using FT OR.
    intros Hp Hv A.
    assert (N : number O (List.length p) <> r0 O) by (apply (number_pos F O inv FT le OR); destruct p; [congruence|discriminate]).
    split; [|split; [exact N|]].
    - intros E; apply Hv; unfold sample_var; fold A; rewrite E; field; exact N.
    - unfold A; change (SimSpec.Sum F O) with (rsum F O); apply (sum_nonneg F O inv FT le OR); intros i _; apply (sq_nonneg F O inv FT le OR).
  Qed.

  (** C59: for the kept periods, if the two variances are not zero and the square roots
      of the variances are square roots, then correlations are symmetric, one on the
      diagonal and at most one in absolute value. *)
  Theorem C59_corr paths drop q : drop_paths F paths drop = Ok q -> q <> [] ->
    exists c, corr F O (number O) sqrt paths drop = Ok c /\
      (forall i j, c i j = c j i) /\
      (forall i, sample_var q i <> r0 O -> rmul O (sqrt (sample_var q i)) (sqrt (sample_var q i)) = sample_var q i -> c i i = r1 O) /\
      (forall i j, sample_var q i <> r0 O -> sample_var q j <> r0 O ->
         rmul O (sqrt (sample_var q i)) (sqrt (sample_var q i)) = sample_var q i ->
         rmul O (sqrt (sample_var q j)) (sqrt (sample_var q j)) = sample_var q j ->
         le (rmul O (c i j) (c i j)) (r1 O)).
  Proof using FT OR.
    intros E Hq; unfold corr; rewrite E; cbn [bind]; eexists; split; [reflexivity|].
    assert (Nz : forall i, sample_var q i <> r0 O -> rmul O (sqrt (sample_var q i)) (sqrt (sample_var q i)) = sample_var q i -> sqrt (sample_var q i) <> r0 O).
    { intros i H1 H2 H3; apply H1; rewrite <- H2, H3; ring. }
    split; [|split].
    - intros i j; f_equal; [f_equal; apply rsum_ext; intros t _; ring|ring].
    - intros i Hv Hs; rewrite (variance_eq q i), Hs.
      change (rdiv O (sample_var q i) (sample_var q i) = r1 O); field; exact Hv.
    - intros i j Hi Hj Si Sj; rewrite (variance_eq q i), (variance_eq q j).
      destruct (var_parts q i Hq Hi) as (NA & NT & PA); destruct (var_parts q j Hq Hj) as (NB & _ & PB).
      pose proof (Nz i Hi Si) as Ni; pose proof (Nz j Hj Sj) as Nj.
      unfold row in *; set (C := rsum F O _ _); set (s := sqrt (sample_var q i)) in *; set (r := sqrt (sample_var q j)) in *.
      set (A := SimSpec.Sum F O (List.length q) (fun t => rmul O (deviation q t i) (deviation q t i))) in *.
      set (B := SimSpec.Sum F O (List.length q) (fun t => rmul O (deviation q t j) (deviation q t j))) in *.
      set (T := number O (List.length q)) in *.
      change (sample_var q i) with (rdiv O A T) in Si; change (sample_var q j) with (rdiv O B T) in Sj.
      assert (Eq : rmul O (rdiv O (rdiv O C T) (rmul O s r)) (rdiv O (rdiv O C T) (rmul O s r)) = rdiv O (rmul O C C) (rmul O A B)).
      { transitivity (rdiv O (rmul O (rdiv O C T) (rdiv O C T)) (rmul O (rmul O s s) (rmul O r r))); [field; auto|].
        rewrite Si, Sj; field; auto. }
      rewrite Eq; replace (r1 O) with (rdiv O (rmul O A B) (rmul O A B)) by (field; auto).
      apply (le_div F O inv FT le OR); [|apply (o_mul _ _ OR); assumption|apply (cauchy_schwarz F O inv FT le OR)].
      intros E0; apply NB; transitivity (rdiv O (rmul O A B) A); [field; exact NA|rewrite E0; field; exact NA].
  Qed.

  (** Autocorrelations: for lags below the number of periods T, the k-th autocorrelation is
      at most T/(T-k) in absolute value. *)
  Theorem C59_autocorr_partial paths p drop q : drop_paths F paths drop = Ok q -> p < List.length q ->
    exists c, autocorr F O (number O) paths p drop = Ok c /\
      forall i k, 1 <= k <= p -> sample_var q i <> r0 O ->
        le (rmul O (rmul O (number O (List.length q - k)) (c i (k - 1))) (rmul O (number O (List.length q - k)) (c i (k - 1))))
           (rmul O (number O (List.length q)) (number O (List.length q))).
  Proof using FT OR.
    intros E Hp; unfold autocorr; rewrite E; cbn [bind].
    destruct (Nat.ltb_spec (List.length q) p); [unfold row in *; lia|]; eexists; split; [reflexivity|].
    intros i k Hk Hv; cbn beta zeta; rewrite (variance_eq q i); replace (S (k - 1)) with k by lia.
    destruct (var_parts q i ltac:(destruct q; [cbn in Hp; lia|discriminate]) Hv) as (NA & NT & PA).
    assert (NK : number O (List.length q - k) <> r0 O) by (apply (number_pos F O inv FT le OR); unfold row in *; lia).
    unfold row in *; set (a := fun t => deviation q t i).
    set (C := rsum F O (List.length q - k) (fun t => rmul O (a (t + k)) (a t))).
    change (rsum F O _ _) with C.
    set (A := SimSpec.Sum F O (List.length q) (fun t => rmul O (a t) (a t))).
    change (SimSpec.Sum F O _ _) with A in NA, PA.
    set (T := number O (List.length q)) in *; set (K := number O (List.length q - k)) in *.
    assert (Vd : sample_var q i = rdiv O A T) by reflexivity; rewrite Vd in *.
    assert (Eq : rmul O (rmul O K (rdiv O (rdiv O C K) (rdiv O A T))) (rmul O K (rdiv O (rdiv O C K) (rdiv O A T))) = rdiv O (rmul O (rmul O C C) (rmul O T T)) (rmul O A A)) by (field; auto).
    rewrite Eq; replace (rmul O T T) with (rdiv O (rmul O (rmul O A A) (rmul O T T)) (rmul O A A)) at 2 by (field; auto).
    apply (le_div F O inv FT le OR); [|apply (o_mul _ _ OR); exact PA|].
    { intros E0; apply NA; transitivity (rdiv O (rmul O A A) A); [field; exact NA|rewrite E0; field; exact NA]. }
    apply (mul_mono F O inv FT le OR); [apply (sq_nonneg F O inv FT le OR)| |apply (sq_nonneg F O inv FT le OR)|apply (OrderProofs.le_refl F O le OR)].
    eapply (o_trans _ _ OR); [apply (cauchy_schwarz F O inv FT le OR)|].
    assert (NN : forall n h, le (r0 O) (rsum F O n (fun t => rmul O (h t) (h t)))) by (intros n h; apply (sum_nonneg F O inv FT le OR); intros t _; apply (sq_nonneg F O inv FT le OR)).
    apply (mul_mono F O inv FT le OR); [apply NN| |apply NN|]; apply (le_sub F O inv FT le OR); unfold A; change (SimSpec.Sum F O) with (rsum F O).
    - replace (List.length q) with (k + (List.length q - k)) by (unfold row in *; lia).
      replace (k + (List.length q - k) - k) with (List.length q - k) by lia.
      rewrite (rsum_split F O RT k).
      replace (rsum F O (List.length q - k) (fun i => rmul O (a (k + i)) (a (k + i)))) with (rsum F O (List.length q - k) (fun i => rmul O (a (i + k)) (a (i + k))))
        by (apply rsum_ext; intros t _; rewrite Nat.add_comm; reflexivity).
      match goal with |- le _ (rsub O (radd O ?x ?y) ?y) => replace (rsub O (radd O x y) y) with x by ring end; apply NN.
    - replace (List.length q) with ((List.length q - k) + k) at 1 by (unfold row in *; lia).
      rewrite (rsum_split F O RT (List.length q - k)).
      match goal with |- le _ (rsub O (radd O ?x ?y) ?x) => replace (rsub O (radd O x y) x) with y by ring end; apply NN.
  Qed.
  (** As many lags as periods are accepted, although the last one divides by zero. *)
  Theorem C59_lags_iff paths p drop q : drop_paths F paths drop = Ok q ->
    (exists c, autocorr F O (number O) paths p drop = Ok c) <-> p <= List.length q.
  Proof using.
    intros E; unfold autocorr; rewrite E; cbn [bind].
    destruct (Nat.ltb_spec (List.length q) p); split; [intros (c & H'); discriminate H'|unfold row in *; lia|intros _; unfold row in *; lia|eauto].
  Qed.
End Corr.

Definition qz (x : Z) : Qc := Q2Qc (inject_Z x).
Definition column (l : list Z) : list (list Qc) := map (fun x => [qz x]) l.
(** A sample autocorrelation can exceed one. *)
Definition autocorr_at_most_one : Prop :=
  forall (paths : list (list Qc)) p c i k,
    autocorr Qc QO (number QO) paths p 0 = Ok c -> p < List.length paths -> k < p -> sample_var Qc QO paths i <> qz 0 ->
    Qcle (Qcmult (c i k) (c i k)) (qz 1).
Theorem C59_refuted : ~ autocorr_at_most_one.
Proof.
  intros H.
  specialize (H (column [1; 0; 0; 0; 1]%Z) 4 _ 0 3 eq_refl ltac:(cbn; lia) ltac:(lia) ltac:(apply same_neq; vm_compute; reflexivity)).
  revert H; unfold Qcle; apply Qlt_not_le; vm_compute; reflexivity.
Qed.
(** ... and the autocorrelation at a lag equal to the number of periods is a quotient by
    zero. *)
Definition lags_within_periods : Prop :=
  forall (paths : list (list Qc)) p drop c q, drop_paths Qc paths drop = Ok q ->
    autocorr Qc QO (number QO) paths p drop = Ok c -> forall k, 1 <= k <= p -> number QO (List.length q - k) <> qz 0.
Theorem C59_lags_refuted : ~ lags_within_periods.
Proof.
  intros H; refine (H (column [1; 0; 1]%Z) 3 0%Z _ _ eq_refl eq_refl 3 _ _); [lia|reflexivity].
Qed.

(** Two columns with variances 1 and 4. *)
Example C59_nonvacuous :
  let p := [[qz 1; qz 2]; [qz (-1); qz 2]; [qz 1; qz (-2)]; [qz (-1); qz (-2)]] in
  let root (x : Qc) := if same x (qz 1) then qz 1 else qz 2 in
  drop_paths Qc p 0 = Ok p /\ is_ordered QO Qcle /\ is_field QO Qcinv /\
  sample_var Qc QO p 0 = qz 1 /\ sample_var Qc QO p 1 = qz 4 /\
  rmul QO (root (qz 1)) (root (qz 1)) = qz 1 /\ rmul QO (root (qz 4)) (root (qz 4)) = qz 4.
Proof.
  cbn zeta; split; [reflexivity|]; split; [exact Q_ordered|]; split; [exact Q_field|].
  repeat split; apply same_eq; vm_compute; reflexivity.
Qed.

Print Assumptions C58_drop.
Print Assumptions C58_reject.
Print Assumptions C59_corr.
Print Assumptions C59_autocorr_partial.
Print Assumptions C59_lags_iff.
Print Assumptions C59_refuted.
Print Assumptions C59_lags_refuted.
