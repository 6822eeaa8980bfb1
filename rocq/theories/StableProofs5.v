(** A rule whose undisturbed paths vanish has one covariance of its states; a count of the
    roots outside the unit circle separates them. *)
From Verif Require Import Base Nd NdProofs Mat MatProofs SimSpec Indexing IndexingSpec OrderProofs FirstOrder FirstOrderSpec
  FirstOrderProofs4 StableSpec StableProofs StableProofs2 StableProofs4 PropStable MomentsSpec.
From Verif Require Verify.
From Coq Require Import Permutation.

Section Vanishing.
  Variable F : Type.
  Variable O : rops F.
  Variable finv : F -> F.
  Variable FT : is_field O finv.
  Let FT' : field_theory (r0 O) (r1 O) (radd O) (rmul O) (rsub O) (ropp O) (rdiv O) finv eq := FT.
  Let RT : is_ring O := F_R FT'.
  Let RT' : ring_theory (r0 O) (r1 O) (radd O) (rmul O) (rsub O) (ropp O) eq := RT.
  Add Ring FRst5 : RT'.
  Variable le : F -> F -> Prop.
  Hypothesis OR : is_ordered O le.
  Hypothesis dec : forall x y : F, x = y \/ x <> y.
  Hypothesis AR : archimedean F O le.
  Local Notation bnd := (StableProofs.bnd F O le).
  Local Notation rsum := (rsum F O).
  Local Notation mmul := (mmul F O).
  Local Notation mid := (mid F O).
  Local Notation mtr := (mtr F).
  Local Notation meq := (meq F).

  Lemma one_positive : ~ le (r1 O) (r0 O).
  Proof using FT OR.
    intros H; apply (F_1_neq_0 FT'), (o_anti _ _ OR); [exact H|].
    replace (r1 O) with (rmul O (r1 O) (r1 O)) by ring; apply (sq_nonneg F O finv FT le OR).
  Qed.
  (** Only zero has bounded multiples. *)
  Lemma bnd_zero c : bnd (fun t => rmul O (number O t) c) -> c = r0 O.
  Proof using FT OR dec AR.
    intros H; destruct (dec c (r0 O)) as [E|Ne]; [exact E|exfalso].
    set (two := radd O (r1 O) (r1 O)).
    assert (B : bnd (fun t => rmul O (number O t) two)).
    { apply (StableProofs.bnd_ext F O le (fun t => rmul O (rmul O two (finv c)) (rmul O (number O t) c))); [|apply (bnd_scale F O finv FT le OR), H].
      intros t; transitivity (rmul O (rmul O (finv c) c) (rmul O (number O t) two)); [ring|]; rewrite (Finv_l FT' c Ne); ring. }
    destruct (vanish_one F O finv FT le OR AR (fun _ => two) B (r1 O) one_positive) as [T HT].
    destruct (HT T (Nat.le_refl T)) as [_ G]; apply one_positive.
    apply (sub0 F O finv FT le OR) in G; apply (ge0 F O finv FT le OR).
    replace (rsub O (r0 O) (r1 O)) with (rsub O (r1 O) two); [exact G|unfold two; ring].
  Qed.

  Variable g : rule F.
  Hypothesis P : proper g.
  Hypothesis Van : forall y, (forall t, decides F O g (y t) (fun _ => r0 O) (y (S t))) ->
    bounded F O le (rn g) y /\ forall v, v < rn g -> bnd (fun t => rmul O (number O t) (y (S t) v)).

  (** The states after [t] periods without shocks. *)
  Fixpoint after (x : nat -> F) (t : nat) : nat -> F :=
    match t with 0 => x | S t' => fun i => rsum (rs g) (fun a => rmul O (on_states F g i a) (after x t' a)) end.
  Lemma state_below j : j < rs g -> nth j (rstate g) 0 < rn g.
  Proof using P. intros Hj; destruct P as (_ & Ls & _ & Hs & _); apply Hs, nth_In; lia. Qed.
  Lemma after_bounds x j : j < rs g -> bnd (fun t => after x (S t) j) /\ bnd (fun t => rmul O (number O t) (after x (S (S t)) j)).
  Proof using FT OR P Van.
    intros Hj; set (y := fun t v => rsum (rs g) (fun a => rmul O (ry g (place F g v) a) (after x t a))).
    assert (E : forall t i, i < rs g -> y t (state_at g i) = after x (S t) i).
    { intros t i Hi; unfold y, state_at; change (nth (nth i (rstate g) 0) (rorder g) 0) with (var_at g (nth i (rstate g) 0)).
      rewrite (place_at F g P) by (apply state_below, Hi); reflexivity. }
    assert (D : forall t, decides F O g (y t) (fun _ => r0 O) (y (S t))).
    { intros t i Hi; change (Sum F O) with rsum; rewrite (rsum_all_zero F O RT (rk g)) by (intros; ring).
      transitivity (rsum (rs g) (fun j => rmul O (ry g i j) (y t (state_at g j)))); [|ring].
      unfold y at 1; rewrite (place_at F g P i Hi); apply rsum_ext; intros a Ha; rewrite (E t a Ha); reflexivity. }
    destruct (Van y D) as [B N].
    assert (Hv : state_at g j < rn g).
    { unfold state_at; pose proof (proj1 P) as Pm.
      assert (I : In (nth (nth j (rstate g) 0) (rorder g) 0) (seq 0 (rn g))); [|apply in_seq in I; lia].
      apply (Permutation_in _ Pm), nth_In; rewrite (Permutation_length Pm), seq_length; apply state_below, Hj. }
    split.
    - apply (StableProofs.bnd_ext F O le (fun t => y t (state_at g j))); [intros t; apply E, Hj|exact (each_bnd F O finv FT le OR _ y _ B Hv)].
    - apply (StableProofs.bnd_ext F O le (fun t => rmul O (number O t) (y (S t) (state_at g j)))); [intros t; rewrite (E (S t) j Hj); reflexivity|exact (N _ Hv)].
  Qed.

  Lemma no_unit : no_unit_root F O g.
  Proof using FT OR dec AR P Van.
    intros x Hx i Hi; change (Sum F O) with rsum in Hx.
    assert (E : forall t i, i < rs g -> after x t i = x i).
    { induction t as [|t IH]; intros j Hj; [reflexivity|]; cbn [after]; rewrite (Hx j Hj) at 1; apply rsum_ext; intros a Ha; rewrite IH by exact Ha; reflexivity. }
    apply bnd_zero, (StableProofs.bnd_ext F O le (fun t => rmul O (number O t) (after x (S (S t)) i))); [intros t; rewrite E by exact Hi; reflexivity|apply after_bounds, Hi].
  Qed.
  Lemma is_stable : stable F O g.
  Proof using FT OR dec AR P Van.
    intros W HW i j Hi Hj; set (n := rs g) in *; set (A := on_states F g : mat F).
    set (M := fun t => (fun a b => after (fun c => mid c b) t a) : mat F).
    assert (HW' : meq n n W (mmul n A (mmul n W (mtr A)))) by (intros a b Ha Hb; exact (HW a b Ha Hb)).
    assert (MS : forall t, meq n n (M (S t)) (mmul n A (M t))) by (intros t a b _ _; reflexivity).
    assert (E : forall t, meq n n W (mmul n (M t) (mmul n W (mtr (M t))))).
    { induction t as [|t IH].
      - assert (M0 : meq n n (M 0) mid) by (intros a b _ _; reflexivity).
        rewrite M0, (mtr_id F O n), (mmul_id_l F O RT n n), (mmul_id_r F O RT n n); reflexivity.
      - rewrite (MS t), (mtr_mmul F O RT n n n A (M t)).
        rewrite (mmul_assoc F O RT n n n n A (M t)), <- (mmul_assoc F O RT n n n n W), <- (mmul_assoc F O RT n n n n (M t)), <- IH; exact HW'. }
    apply bnd_zero, (StableProofs.bnd_ext F O le (fun t => rsum n (fun a => rmul O (rmul O (number O t) (M (S (S t)) i a)) (rsum n (fun b => rmul O (W a b) (M (S (S t)) j b)))))).
    - intros t; rewrite (E (S (S t)) i j Hi Hj); unfold Mat.mmul, Mat.mtr; rewrite <- (rsum_mul_l F O RT); apply rsum_ext; intros a _; ring.
    - apply (bnd_sum F O finv FT le OR n (fun t a => rmul O (rmul O (number O t) (M (S (S t)) i a)) (rsum n (fun b => rmul O (W a b) (M (S (S t)) j b))))); intros a Ha.
      apply (bnd_mul F O finv FT le OR (fun t => rmul O (number O t) (M (S (S t)) i a))); [apply after_bounds, Hi|].
      apply (bnd_sum F O finv FT le OR n (fun t b => rmul O (W a b) (M (S (S t)) j b))); intros b Hb; apply (bnd_scale F O finv FT le OR).
      apply (bnd_shift F O le (fun t => M (S t) j b)), after_bounds, Hj.
  Qed.
End Vanishing.

Section Counted.
  Variable F : Type.
  Variable O : rops F.
  Variable finv : F -> F.
  Variable FT : is_field O finv.
  Variable le : F -> F -> Prop.
  Hypothesis OR : is_ordered O le.
  Variable out : cnum F -> bool.
  Hypothesis Hout : forall e, out e = true <-> outside_circle F O le e.

  Lemma in_not_out e : inside_circle F O le e -> out e = false.
  Proof using OR Hout.
    intros H; apply not_true_iff_false; intros G; apply Hout in G; destruct e as [re im| |]; cbn in *; [|exact H|exact G].
    destruct (o_total _ _ OR (r1 O) (radd O (rmul O re re) (rmul O im im))) as [A|A]; [exact (H A)|exact (G A)].
  Qed.
  Lemma counted (eig : list (cnum F)) nb nf : List.length eig = nb + nf ->
    (exists k, k <= List.length eig /\ (forall i, i < k -> inside_circle F O le (nth i eig Nan)) /\ (forall i, k <= i < List.length eig -> ~ inside_circle F O le (nth i eig Nan))) ->
    (forall e, In e eig -> inside_circle F O le e \/ outside_circle F O le e) ->
    List.length (filter out eig) = nf -> separated F O le eig nb.
  Proof using OR Hout.
    intros Ln (k & Hk & Hin & Hno) Hall Hc.
    assert (O' : forall i, k <= i < List.length eig -> outside_circle F O le (nth i eig Nan)).
    { intros i Hi; destruct (Hall (nth i eig Nan) (nth_In _ _ (proj2 Hi))) as [A|A]; [destruct (Hno i Hi A)|exact A]. }
    assert (Ek : k = nb); [|subst k; split; [exact Hk|split; [exact Hin|exact O']]].
    assert (F1 : filter out (firstn k eig) = []).
    { assert (G : forall l, (forall e, In e l -> out e = false) -> filter out l = []).
      { induction l as [|e l IH]; intros H; [reflexivity|]; cbn; rewrite (H e (or_introl eq_refl)); apply IH; intros x I; apply H; right; exact I. }
      apply G; intros e I; apply (In_nth _ _ Nan) in I as (i & Hi & <-); rewrite firstn_length in Hi.
      apply in_not_out; pose proof (Hin i ltac:(lia)) as Q; rewrite <- (firstn_skipn k eig), app_nth1 in Q by (rewrite firstn_length; lia); exact Q. }
    assert (F2 : filter out (skipn k eig) = skipn k eig).
    { assert (G : forall l, (forall e, In e l -> out e = true) -> filter out l = l).
      { induction l as [|e l IH]; intros H; [reflexivity|]; cbn; rewrite (H e (or_introl eq_refl)); f_equal; apply IH; intros x I; apply H; right; exact I. }
      apply G; intros e I; apply (In_nth _ _ Nan) in I as (i & Hi & <-); rewrite skipn_length in Hi.
      apply Hout; pose proof (O' (k + i) ltac:(lia)) as Q; rewrite <- (firstn_skipn k eig), app_nth2 in Q by (rewrite firstn_length; lia).
      rewrite firstn_length in Q; replace (k + i - Nat.min k (List.length eig)) with i in Q by lia; exact Q. }
    rewrite <- (firstn_skipn k eig), filter_app, F1, F2 in Hc; cbn [app] in Hc; rewrite skipn_length in Hc; lia.
  Qed.
  Lemma passed_count (s s' : Verify.statespace (cnum F)) : Verify.is_verified s = None -> Verify.verify (cnum F) out s = (s', None) ->
    List.length (filter out (Verify.eigen s)) = Verify.n_fwd s.
  Proof.
    intros E H; unfold Verify.verify in H; rewrite E in H; unfold Verify.run_verification in H.
    destruct (_ =? _) eqn:A; [apply Nat.eqb_eq, A|discriminate H].
  Qed.
End Counted.
