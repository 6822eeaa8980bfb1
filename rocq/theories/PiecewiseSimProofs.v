(** Proofs for C94: piecewise-linear paths and the equations. *)
From Verif Require Import Base Lexer Syntax Eval EvalSpec FactorySpec Factory Indexing IndexingSpec IndexingProofs IndexingProofs2 DynFunc DynSpec DynProofs DynProofs2 PropDyn Vars ExprList
  ModelState ModelStateSpec ModelStateProofs ModelStateProofs2 Nd Mat NdProofs SimSpec OrderProofs SummarySpec SummaryProofs
  CalcSpec CalcProofs Linearize LinearizeSpec LinearizeProofs Steady SteadyValues SteadyValuesSpec PropSteadyValues
  FirstOrder FirstOrderSpec FirstOrderProofs FirstOrderCurrent PropFirst AccuracySpec AccuracyProofs PropAccuracy SylvesterSpec SecondOrder Pipeline PipelineSpec PipelineProofs
  Occbin OccbinSpec OccbinProofs OccbinProofs2 PropOccbin Piecewise PropPiecewise PathSimProofs PiecewiseSim PiecewiseSimSpec.
From Coq Require Import Ring Field Permutation ZArith.
Local Open Scope nat_scope.
Local Open Scope list_scope.

(** ** The order of the states *)
Lemma merge_filters (f g : nat -> bool) : forall l, Sorted.StronglySorted lt l -> (forall a b, In a l -> In b l -> f a = true -> g b = true -> a < b) ->
  filter f l ++ filter g l = filter (fun v => f v || g v) l.
Proof.
  induction l as [|a l IH]; intros S H; [reflexivity|]; inversion S as [|? ? S' Fa]; subst; cbn [filter].
  assert (IH' := IH S' (fun x y Hx Hy => H x y (or_intror Hx) (or_intror Hy))).
  destruct (f a) eqn:Ef; cbn [orb].
  - assert (Eg : g a = false) by (destruct (g a) eqn:Eg; [|reflexivity]; specialize (H a a (or_introl eq_refl) (or_introl eq_refl) Ef Eg); lia).
    rewrite Eg; cbn [app]; f_equal; exact IH'.
  - destruct (g a) eqn:Eg; [|exact IH'].
    assert (N : filter f l = []).
    { destruct (filter f l) as [|b r] eqn:E; [reflexivity|]; exfalso.
      assert (Hb : In b (filter f l)) by (rewrite E; left; reflexivity); apply filter_In in Hb as [Hb Fb].
      specialize (H b a (or_intror Hb) (or_introl eq_refl) Fb Eg); rewrite Forall_forall in Fa; specialize (Fa b Hb); lia. }
    rewrite N in *; cbn [app] in *; f_equal; exact IH'.
Qed.
Lemma seq_sorted : forall n a, Sorted.StronglySorted lt (seq a n).
Proof.
  induction n as [|n IH]; intros a; cbn [seq]; constructor; [apply IH|]; apply Forall_forall; intros i Hi; apply in_seq in Hi; lia.
Qed.
Lemma states_members L k : members is_state (array L k) = members_of L (backward L).
Proof.
  rewrite (members_array is_state (fun a _ _ => a) L k) by (intros [?|] [?|] [?|]; reflexivity); reflexivity.
Qed.
Lemma states_ordered F endog (exprs : list (ast F)) L : offsets_of endog exprs L -> states_in_order endog exprs ->
  members_of L (pure_backward L) ++ members_of L (mixed L) = members_of L (backward L).
Proof.
  intros [LL Of] H; unfold members_of; rewrite merge_filters.
  - apply filter_ext; intros v; unfold pure_backward, mixed, backward; destruct (at_k L v (-1)), (at_k L v 1); reflexivity.
  - apply seq_sorted.
  - intros a b Ha Hb Fa Gb; apply in_seq in Ha, Hb; unfold pure_backward, mixed in *; apply andb_true_iff in Fa as [F1 F2], Gb as [G1 G2].
    apply (H a b); [apply Of; [lia|exact F1]| |apply Of; [lia|exact G1]|apply Of; [lia|exact G2]].
    intros K; apply Of in K; [rewrite K in F2; discriminate|lia].
Qed.

(** ** Rules as matrices *)
Section Rules.
  Variable F : Type.
  Variable O : rops F.
  Hypothesis RT : is_ring O.
  Let RT' : ring_theory (r0 O) (r1 O) (radd O) (rmul O) (rsub O) (ropp O) eq := RT.
  Add Ring Rrules94 : RT'.
  Local Notation "x + y" := (radd O x y).
  Local Notation "x * y" := (rmul O x y).
  Notation rsum := (Nd.rsum F O).
  Notation z := (r0 O).

  (** Columns that are put in places without repetitions. *)
  Lemma placed_sum (l : list nat) n (f b : nat -> F) : NoDup l -> (forall w, In w l -> w < n) ->
    rsum n (fun w => match index_of w l with Some j => f j | None => z end * b w) = rsum (List.length l) (fun j => f j * b (nth j l 0)).
  Proof.
    intros Nd Hb; transitivity (rsum n (fun w => rsum (List.length l) (fun j => if nth j l 0 =? w then f j * b w else z))).
    - apply rsum_ext; intros w Hw; destruct (in_dec Nat.eq_dec w l) as [Hi|Hi].
      + apply (In_nth _ _ 0) in Hi as (j & Hj & <-); rewrite index_of_nth by assumption; symmetry; rewrite (rsum_single F O RT _ j _ Hj), Nat.eqb_refl; [reflexivity|].
        intros i Hi Ne; destruct (Nat.eqb_spec (nth i l 0) (nth j l 0)) as [E|]; [|reflexivity]; elim Ne; apply (proj1 (NoDup_nth l 0) Nd); assumption.
      + rewrite index_of_None by exact Hi; symmetry; rewrite (rsum_all_zero F O RT); [ring|].
        intros j Hj; destruct (Nat.eqb_spec (nth j l 0) w) as [E|]; [|reflexivity]; elim Hi; rewrite <- E; apply nth_In, Hj.
    - rewrite (rsum_swap F O RT); apply rsum_ext; intros j Hj; assert (Hw : nth j l 0 < n) by (apply Hb, nth_In, Hj).
      rewrite (rsum_single F O RT _ _ _ Hw), Nat.eqb_refl; [reflexivity|]; intros w _ Ne; destruct (Nat.eqb_spec (nth j l 0) w); [congruence|reflexivity].
  Qed.

  Variable x : indexes.
  Notation n := (n_endog x).
  Hypothesis Hp : Permutation (dr_order x) (seq 0 n).
  Lemma rule_matrix_inv ns (f : nat -> nat -> F) gy : ns = List.length (members is_state x) -> 0 < ns -> 0 < n ->
    rule_matrix F O x (squeeze F (M2 n ns f)) = Ok gy ->
    2 <= n /\ forall v b, v < n ->
      rsum n (fun w => gy v w * b w) = rsum ns (fun j => f (nth v (dc_order x) 0) j * b (nth j (members is_state x) 0)).
  Proof using RT Hp.
    intros Es Hs Hn; unfold rule_matrix, squeeze; pose proof (dc_length x Hp) as Ld.
    assert (Sb : forall w, In w (members is_state x) -> w < n) by (intros w; apply (state_bound x n Hp)).
    assert (Sn : NoDup (members is_state x)) by apply where_sorted.
    destruct (Nat.eqb_spec n 1) as [N1|N1], (Nat.eqb_spec ns 1) as [S1|S1]; cbn [take_rows]; try discriminate.
    - exfalso; rewrite Es in S1, Hs; assert (Ia := Sb (nth 0 (members is_state x) 0)); assert (Ib := Sb (nth 1 (members is_state x) 0)).
      specialize (Ia ltac:(apply nth_In; lia)); specialize (Ib ltac:(apply nth_In; lia)).
      assert (E : 0 = 1) by (apply (proj1 (NoDup_nth _ 0) Sn); lia); discriminate E.
    - rewrite (dc_bound x Hp n (le_n n)); cbn [bind set_columns]; rewrite Ld, <- Es, S1; unfold fits; cbn [orb]; rewrite (proj2 (Nat.eqb_neq n 1) N1); discriminate.
    - rewrite (dc_bound x Hp n (le_n n)); cbn [bind set_columns]; rewrite Ld, <- Es; unfold fits; rewrite !Nat.eqb_refl; cbn [orb andb]; intros E; injection E as <-.
      split; [lia|]; intros v b Hv; unfold at_; rewrite (proj2 (Nat.eqb_neq n 1) N1), (proj2 (Nat.eqb_neq ns 1) S1).
      rewrite (placed_sum (members is_state x) n (fun j => f (nth v (dc_order x) 0) j) b Sn Sb), <- Es; reflexivity.
  Qed.
  Lemma shock_matrix_inv k (f : nat -> nat -> F) k' gu : 2 <= n -> shock_matrix F x (squeeze F (M2 n k f)) = Ok (k', gu) ->
    k' = k /\ forall v j, v < n -> j < k -> gu v j = f (nth v (dc_order x) 0) j.
  Proof using Hp.
    intros Hn; unfold shock_matrix, squeeze; rewrite (proj2 (Nat.eqb_neq n 1)) by lia; destruct (Nat.eqb_spec k 1) as [->|K]; cbn [take_rows]; rewrite (dc_bound x Hp n (le_n n)); cbn [bind];
      intros E; injection E as <- <-; (split; [reflexivity|]); intros v j Hv Hj; cbn beta; f_equal; lia.
  Qed.
End Rules.

Section Solved.
  Variable F : Type.
  Variable O : rops F.
  Variable finv : F -> F.
  Hypothesis FT : is_field O finv.
  Let FT' : field_theory (r0 O) (r1 O) (radd O) (rmul O) (rsub O) (ropp O) (rdiv O) finv eq := FT.
  Add Field Fsolved94 : FT'.
  Let RT : is_ring O := F_R FT'.
  Local Notation "x + y" := (radd O x y).
  Local Notation "x * y" := (rmul O x y).
  Notation rsum := (Nd.rsum F O).
  Notation z := (r0 O).
  Variable L : list (list Z).
  Variable k : nat.
  Variable J : nat -> nat -> F.
  Variable g : rule F.
  Variable q : system F.
  Notation n := (List.length L).
  Notation X := (array L k).
  Hypothesis all0 : forall i, i < n -> at_k L i 0 = true.
  Hypothesis Ab : about F L g.
  Hypothesis Pr : proper g.
  Hypothesis Rk : rk g = k.
  Hypothesis Sol : solves_model F O L J g.
  Hypothesis QA : forall i v, i < n -> v < n ->
       (forall j, nth_error (timed_vars L) j = Some (v, 1%Z) -> sA F q i v = J i j) /\ (at_k L v 1 = false -> sA F q i v = z) /\
       (forall j, nth_error (timed_vars L) j = Some (v, 0%Z) -> sB F q i v = J i j) /\ (at_k L v 0 = false -> sB F q i v = z) /\
       (forall j, nth_error (timed_vars L) j = Some (v, (-1)%Z) -> sC F q i v = J i j) /\ (at_k L v (-1) = false -> sC F q i v = z).
  Hypothesis QE : forall i j, j < k -> sE F q i j = J i (List.length (timed_vars L) + j).
  Hypothesis QD : forall i, i < n -> sD F q i = z.
  Hypothesis In_order : members_of L (pure_backward L) ++ members_of L (mixed L) = members_of L (backward L).

  Lemma state_is j : j < rs g -> state_at g j = nth j (members is_state X) 0.
  Proof using Ab In_order.
    intros Hj; destruct Ab as (_ & Eo & Est & Es); unfold state_at; rewrite Est, Eo, states_members.
    rewrite Es in Hj; rewrite seq_nth by exact Hj; rewrite app_nth2_plus, app_assoc, In_order; apply app_nth1, Hj.
  Qed.
  Lemma rule_solves gy gu k' : rule_matrix F O X (squeeze F (M2 (rn g) (rs g) (ry g))) = Ok gy ->
    shock_matrix F X (squeeze F (M2 (rn g) (rk g) (ru g))) = Ok (k', gu) -> k' = k /\ solves F O n k q gy gu.
  Proof using FT all0 Ab Pr Rk Sol QA QE QD In_order.
    intros Ey Eu; pose proof (n_endog_is L k) as En; pose proof (order_is L k all0) as Eo; pose proof (FirstOrderProofs.order_perm L k all0) as Op.
    assert (Hp : Permutation (dr_order X) (seq 0 (n_endog X))) by (rewrite En, Eo; exact Op).
    destruct Ab as (Rn & Ro & Rst & Rs); destruct Pr as (_ & _ & _ & _ & P1 & P2 & _).
    assert (Es : rs g = List.length (members is_state X)) by (rewrite states_members; exact Rs).
    rewrite Rn, <- En in Ey, Eu; rewrite Rn in P1.
    destruct (rule_matrix_inv F O RT X Hp (rs g) (ry g) gy Es P2 ltac:(rewrite En; exact P1) Ey) as [N2 Gy].
    destruct (shock_matrix_inv F X Hp (rk g) (ru g) k' gu N2 Eu) as [-> Gu]; split; [exact Rk|]; rewrite En in *.
    assert (Dc : forall v, v < n -> var_at g (nth v (dc_order X) 0) = v /\ nth v (dc_order X) 0 < n).
    { intros v Hv; destruct (dc_nth X ltac:(rewrite En; exact Hp) v ltac:(rewrite En; exact Hv)) as [D1 D2]; rewrite En in D2; unfold var_at; rewrite Ro; split; [|exact D2].
      rewrite Eo in D1; exact D1. }
    assert (Dec : forall before u after, (forall v, v < n -> after v = rsum n (fun w => gy v w * before w) + rsum k (fun l => gu v l * u l)) -> decides F O g before u after).
    { intros before u after H i Hi; rewrite Rn in Hi; change (SimSpec.Sum F O) with rsum.
      assert (Hv : var_at g i < n).
      { unfold var_at; rewrite Ro; assert (In (nth i (order L) 0) (seq 0 n)); [|apply in_seq in H0; unfold order, St, PB, MX, PF in H0; lia].
        apply (Permutation_in _ Op), nth_In; rewrite (Permutation_length Op), seq_length; exact Hi. }
      rewrite (H _ Hv); destruct (Dc _ Hv) as [D1 D2].
      assert (Ei : nth (var_at g i) (dc_order X) 0 = i).
      { unfold var_at in D1 at 1; rewrite Ro in D1; assert (D3 : var_at g i = nth i (order L) 0) by (unfold var_at; rewrite Ro; reflexivity).
        assert (Nd : NoDup (order L)) by (apply (Permutation_NoDup (Permutation_sym Op)), seq_NoDup).
        apply (proj1 (NoDup_nth (order L) 0) Nd); [rewrite (Permutation_length Op), seq_length; exact D2|rewrite (Permutation_length Op), seq_length; exact Hi|rewrite <- D3; exact D1]. }
      rewrite (Gy _ before Hv), Ei; f_equal.
      - apply rsum_ext; intros j Hj; rewrite state_is by exact Hj; reflexivity.
      - rewrite Rk; apply rsum_ext; intros l Hl; rewrite Gu by (try exact Hv; rewrite Rk; exact Hl); rewrite Ei; reflexivity. }
    assert (Lin : forall lag u i, i < n ->
      let now v := rsum n (fun w => gy v w * lag w) + rsum k (fun l => gu v l * u l) in
      let next v := rsum n (fun w => gy v w * now w) in
      rsum n (fun j => sA F q i j * next j) + rsum n (fun j => sB F q i j * now j) + rsum n (fun j => sC F q i j * lag j) + rsum k (fun j => sE F q i j * u j) = z).
    { intros lag u i Hi now next; rewrite <- (regroup F O RT L k J q lag now next u i); [|intros v Hv; exact (QA i v Hi Hv)|intros j Hj; exact (QE i j Hj)].
      rewrite <- Rk; apply (linear_arg F O finv FT L g Rn); apply Sol; [apply Dec; intros; reflexivity| |exact Hi].
      apply Dec; intros v _; unfold next; rewrite (rsum_all_zero F O RT k); [ring|]; intros; ring. }
    unfold solves; change (SimSpec.Sum F O) with rsum; split; [|split; [|exact QD]].
    - intros i j Hi Hj; pose proof (Lin (fun w => if w =? j then r1 O else z) (fun _ => z) i Hi) as E; cbn zeta in E.
      assert (U : forall f : nat -> F, rsum n (fun w => f w * (if w =? j then r1 O else z)) = f j).
      { intros f; rewrite (rsum_single F O RT _ j _ Hj), Nat.eqb_refl; [ring|]; intros w _ Nw; rewrite (proj2 (Nat.eqb_neq _ _) Nw); ring. }
      assert (Z : forall f : nat -> F, rsum k (fun l => f l * z) = z) by (intros f; apply (rsum_all_zero F O RT); intros; ring).
      assert (Nw : forall v, rsum n (fun w => gy v w * (if w =? j then r1 O else z)) + rsum k (fun l => gu v l * z) = gy v j) by (intros v; rewrite U, Z; ring).
      rewrite U, Z in E; rewrite <- E.
      rewrite (rsum_ext F O n (fun l => sA F q i l * rsum n (fun m => gy l m * gy m j)) (fun l => sA F q i l * rsum n (fun w => gy l w * (rsum n (fun w0 => gy w w0 * (if w0 =? j then r1 O else z)) + rsum k (fun l0 => gu w l0 * z))))) by
        (intros l _; f_equal; apply rsum_ext; intros m _; rewrite Nw; reflexivity).
      rewrite (rsum_ext F O n (fun l => sB F q i l * gy l j) (fun l => sB F q i l * (rsum n (fun w => gy l w * (if w =? j then r1 O else z)) + rsum k (fun l0 => gu l l0 * z)))) by
        (intros l _; rewrite Nw; reflexivity).
      ring.
    - intros i j Hi Hj; pose proof (Lin (fun _ => z) (fun l => if l =? j then r1 O else z) i Hi) as E; cbn zeta in E.
      assert (U : forall f : nat -> F, rsum k (fun w => f w * (if w =? j then r1 O else z)) = f j).
      { intros f; rewrite (rsum_single F O RT _ j _ Hj), Nat.eqb_refl; [ring|]; intros w _ Nw; rewrite (proj2 (Nat.eqb_neq _ _) Nw); ring. }
      assert (Z : forall f : nat -> F, rsum n (fun l => f l * z) = z) by (intros f; apply (rsum_all_zero F O RT); intros; ring).
      assert (Nw : forall v, rsum n (fun w => gy v w * z) + rsum k (fun l => gu v l * (if l =? j then r1 O else z)) = gu v j) by (intros v; rewrite U, Z; ring).
      rewrite U, Z in E.
      rewrite (rsum_ext F O n _ (fun l => sA F q i l * rsum n (fun m => gy l m * gu m j))) in E by (intros l _; f_equal; apply rsum_ext; intros m _; rewrite Nw; reflexivity).
      rewrite (rsum_ext F O n (fun l => sB F q i l * _) (fun l => sB F q i l * gu l j)) in E by (intros l _; rewrite Nw; reflexivity).
      etransitivity; [|exact E].
      rewrite (rsum_ext F O n (fun l => (rsum n (fun m => sA F q i m * gy m l) + sB F q i l) * gu l j) (fun l => rsum n (fun m => sA F q i m * (gy m l * gu l j)) + sB F q i l * gu l j)).
      2:{ intros l _; rewrite (rsum_ext F O n (fun m => sA F q i m * (gy m l * gu l j)) (fun m => sA F q i m * gy m l * gu l j)) by (intros; ring); rewrite (rsum_mul_r F O RT); ring. }
      rewrite (rsum_add F O RT), (rsum_swap F O RT).
      rewrite (rsum_ext F O n (fun m => rsum n (fun l => sA F q i m * (gy m l * gu l j))) (fun l => sA F q i l * rsum n (fun m => gy l m * gu m j))) by (intros l _; apply (rsum_mul_l F O RT)).
      ring.
  Qed.
End Solved.

(** ** Regimes and their equations *)
Lemma partition_constant F O x (J : mat F) D q : partition F O x J D = Ok q -> forall D', partition F O x J D' = Ok (System F (sA F q) (sB F q) (sC F q) D' (sE F q)).
Proof.
  unfold partition; cbn zeta; intros H D'.
  repeat (match type of H with bind ?r _ = Ok _ => let v := fresh "v" in let E := fresh "E" in destruct r as [v|] eqn:E; [|discriminate H]; cbn [bind] in * end).
  injection H as <-; reflexivity.
Qed.

Section Regimes.
  Variable F : Type.
  Variable O : rops F.
  Variable P : ops F.
  Variable ltb eqb : F -> F -> bool.
  Variable nan : F.
  Variable minimize : solver -> (list F -> res F) -> list F -> res (list F).
  Variable grad : (list F -> res F) -> list F -> res (list F).
  Variable jacobian : (list F -> res (list F)) -> list F -> res (list (list F)).
  Variable qr : nat -> nat -> mat F -> res (mat F * mat F).
  Variable rank : nat -> nat -> mat F -> nat.
  Variable ordqz : nat -> mat F -> mat F -> res (schur F).
  Variable inv : nat -> mat F -> res (mat F).
  Variable qz : nat -> mat F -> mat F -> res (mat F * mat F * mat F * mat F).
  Variable solve : nat -> nat -> mat F -> mat F -> res (mat F).
  Notation space := (whole_space F O P ltb nan minimize grad qr rank ordqz).
  Notation solver_ := (whole_solver F O P eqb nan minimize grad jacobian inv qz solve).
  Notation fresh := (ModelStateProofs.fresh F (space_of F) space).
  Variable finv : F -> F.
  Variable le : F -> F -> Prop.
  Variable fns : string -> smooth_fun F.
  Variable pows : F -> smooth_fun F.
  Hypothesis FT : is_field O finv.
  Hypothesis OR : is_ordered O le.
  Hypothesis Hl : forall x y, ltb x y = false <-> le y x.
  Hypothesis HI : interprets F O le P fns pows.
  Hypothesis Hqr : qr_routine F O qr.
  Hypothesis Hqz : schur_routine F O le ordqz.
  Hypothesis Hinv : inverse_routine F O inv.
  Hypothesis Hs : linear_routine F O solve.

  Notation as_matrix A := (match A with M2 _ _ J => J | V1 _ J => fun i _ => J i | S0 x => fun _ _ => x end).

  Notation comparable := (PiecewiseSimSpec.comparable F O le P grad jacobian fns pows).
  Lemma regime_holds ns sv es sc dy own ref reg :
    readable ns sv es sc -> List.length es = List.length ns -> List.length ref = List.length ns -> comparable ns sv es sc own ref ->
    build F ns sv es sc = Ok dy -> regime_of_model F O P grad dy own ref = Ok reg ->
    exists q, partition F O (g_index F reg) (g_jac F reg) (g_resid F reg) = Ok q /\
      (forall i e, nth_error es i = Some e -> steady_residual F O P ns sv sc e ref (sD F q i)) /\
      forall before now after u, OccbinSpec.equations F O (List.length ns) (List.length sv) q before now after u ->
        holds_linearly F O le P ns sv sc es ref before now after u.
  Proof using FT OR HI.
    intros Re Sq Lr (Hd & Lo & So & Sr & Hsame) B Rg.
    assert (Same : forall l e c d, signature F ns es l -> In e es -> c < List.length l + List.length sv ->
      partial F O le (residual F P ns sv sc l e) (rest_point F O sv l own) c d -> partial F O le (residual F P ns sv sc l e) (rest_point F O sv l ref) c d).
    { destruct Hsame as [->|H]; [intros l e c d _ _ _ Hp; exact Hp|exact H]. }
    destruct (regime_expansion F O finv FT le OR P fns pows HI ns sv es sc Re Sq grad jacobian Hd own ref Lo Lr So Sr Same) as (m & q & Em & Eq & X).
    destruct (regime_facts F O finv FT le OR P fns pows HI ns sv es sc Re grad jacobian Hd own ref Lo Lr So Sr) as (m' & lls & J & q' & Em' & _ & _ & Eq' & _ & QD & _).
    rewrite B in Em, Em'; injection Em as <-; injection Em' as <-; rewrite Eq in Eq'; injection Eq' as <-.
    exists q; unfold regime_system in Eq; rewrite Rg in Eq; cbn [bind] in Eq; split; [exact Eq|]; split; [exact QD|].
    intros before now after u H; destruct (X before now after u) as (b & Eb & Xb); apply Forall_forall; intros e He; apply In_nth_error in He as (i & He).
    destruct (Xb i e He) as (r & R1 & R2); exists r, (sD F q i), (b i); split; [exact R1|]; split; [exact R2|].
    apply (proj1 Eb H); rewrite <- Sq; apply nth_error_Some; congruence.
  Qed.

  Lemma reference_solved ns is (sv : list (svar F)) es sc x st dy sp s : fresh ns is sv es sc x st dy sp -> solver_ None is st dy sp = Ok s ->
    readable ns (map sv_name sv) es sc -> List.length es = List.length ns ->
    (forall l, signature F ns es l -> differentiates F O le P ns (map sv_name sv) es sc grad jacobian l) ->
    is_steady F O P ns (map sv_name sv) es sc (sp_ss sp) -> smooth_at F O ns (map sv_name sv) es sc fns pows (sp_ss sp) ->
    ((exists e, In e (eigen (sp_state sp)) /\ beyond_one F O le e) \/ not_complex F O (last (eigen (sp_state sp)) Nan)) ->
    states_in_order ns es ->
    n_endog (r_index F dy) = List.length ns /\
    exists gy gu r, s = Pipeline.First gy gu /\ partition F O (r_index F dy) (as_matrix (sp_jac sp)) (fun _ => r0 O) = Ok r /\
      (forall gyd k gud, rule_matrix F O (r_index F dy) gy = Ok gyd -> shock_matrix F (r_index F dy) gu = Ok (k, gud) ->
        k = List.length sv /\ OccbinSpec.solves F O (List.length ns) k r gyd gud) /\
      forall before now after u, OccbinSpec.equations F O (List.length ns) (List.length sv) r before now after u ->
        holds_linearly F O le P ns (map sv_name sv) sc es (sp_ss sp) before now after u.
  Proof using FT OR Hl HI Hqr Hqz Hinv Hs.
    intros H Es Re Sq Hd [Ls SS] Sm Rt Od; pose proof Re as (Nd & Nc & R & W & Dj).
    destruct (fresh_built F O P ltb nan minimize grad qr rank ordqz _ _ _ _ _ _ _ _ _ H) as (B & _ & _ & _ & J & S).
    cbn [whole_solver] in Es; apply bind_ok in Es as ([gy gu] & Eg & Es); injection Es as <-; cbn [fst snd] in *.
    destruct (expansion F O finv FT le OR P fns pows HI ns (map sv_name sv) es sc Nd Nc R W Dj (sp_ss sp) Ls Sm grad jacobian Hd)
      as (m' & lls & J' & H' & Em' & El & Ei & Sg & EJ & _ & _ & EX); clear EX H'.
    rewrite B in Em'; injection Em' as <-; rewrite EJ in J; injection J as J; rewrite <- J in *; clear J.
    pose proof (Ne ns (map sv_name sv) Nd) as Nn.
    destruct (lls_offsets F ns es lls Nn R El) as (Of & Ir & Nk); pose proof (proj1 Of) as LL; rewrite map_length in Ei, EJ, S.
    rewrite Ei in S, Eg; rewrite Ei; split; [rewrite n_endog_is; exact LL|].
    pose proof S as S'; rewrite Sq, <- LL in S'.
    pose proof (solved_current F O ltb qr rank ordqz inv solve (map snd lls) _ J' _ _ _ Ir S' Eg) as all0.
    destruct (C40_partial F O finv le ltb qr rank ordqz inv solve lls (List.length sv) (array (map snd lls) (List.length sv)) J' (sp_state sp) gy gu FT OR Hl Hqr Hqz Hinv Hs Nk Ir)
      as (g & Ab & Pg & K & E1 & E2 & S1); [apply index_manager_array; assumption|exact S'|exact Rt|exact Eg|].
    destruct (C67_coefficients F O lls (List.length sv) (array (map snd lls) (List.length sv)) J' (fun _ => r0 O) Nk Ir) as (r & Er & Q1 & Q2 & Q3); [apply index_manager_array; assumption|].
    rewrite <- (map_length snd lls) in Q1.
    exists gy, gu, r; split; [reflexivity|]; split; [exact Er|]; split.
    - intros gyd k gud Ey Eu; rewrite E1 in Ey; rewrite E2 in Eu; rewrite <- LL.
      destruct (rule_solves F O finv FT (map snd lls) (List.length sv) J' g r all0 Ab Pg K S1 Q1 Q3 (fun i _ => Q2 i) (states_ordered F ns es _ Of Od) gyd gud k Ey Eu) as [-> X].
      split; [reflexivity|exact X].
    - intros before now after u He.
      assert (Cm : comparable ns (map sv_name sv) es sc (sp_ss sp) (sp_ss sp)) by (split; [exact Hd|]; split; [exact Ls|]; split; [exact Sm|]; split; [exact Sm|left; reflexivity]).
      assert (Rg : exists reg, regime_of_model F O P grad dy (sp_ss sp) (sp_ss sp) = Ok reg /\ g_index F reg = array (map snd lls) (List.length sv) /\ g_jac F reg = J').
      { destruct Cm as (_ & _ & _ & _ & _).
        destruct (regime_facts F O finv FT le OR P fns pows HI ns (map sv_name sv) es sc Re grad jacobian Hd (sp_ss sp) (sp_ss sp) Ls Ls Sm Sm) as (m' & _ & _ & q & Em' & _ & _ & Eq & _).
        rewrite B in Em'; injection Em' as <-; unfold regime_system in Eq; apply bind_ok in Eq as (reg & Eq & _); exists reg; split; [exact Eq|].
        unfold regime_of_model in Eq; rewrite EJ in Eq; cbn [bind] in Eq; apply bind_ok in Eq as (v & _ & Eq); apply bind_ok in Eq as (d & _ & Eq); injection Eq as <-; auto. }
      destruct Rg as (reg & Rg & Rx & Rj).
      destruct (regime_holds ns (map sv_name sv) es sc dy (sp_ss sp) (sp_ss sp) reg Re Sq Ls Cm B Rg) as (q & Eq & QD & X); apply X.
      rewrite Rx, Rj in Eq; pose proof (partition_constant _ _ _ _ _ _ Eq (fun _ => r0 O)) as Er'; rewrite Er in Er'; injection Er' as ->.
      intros i Hi; specialize (He i Hi); cbn [sA sB sC sD sE] in He; rewrite map_length in *.
      assert (Hx : exists e, nth_error es i = Some e) by (destruct (nth_error es i) eqn:E; [eauto|apply nth_error_None in E; lia]); destruct Hx as (e & Hx).
      assert (Z : sD F q i = r0 O).
      { apply (steady_unique F O P ns (map sv_name sv) es sc Nd W (sp_ss sp) Ls e); [exact (nth_error_In _ _ Hx)|exact (QD i e Hx)|].
        exact (proj1 (Forall_forall _ _) SS e (nth_error_In _ _ Hx)). }
      rewrite Z; exact He.
  Qed.
End Regimes.

(** ** The states of the models *)
Section Models.
  Variable F : Type.
  Variable O : rops F.
  Variable P : ops F.
  Variable ltb eqb : F -> F -> bool.
  Variable isnum : F -> bool.
  Variable nan : F.
  Variable minimize : solver -> (list F -> res F) -> list F -> res (list F).
  Variable grad : (list F -> res F) -> list F -> res (list F).
  Variable jacobian : (list F -> res (list F)) -> list F -> res (list (list F)).
  Variable qr : nat -> nat -> mat F -> res (mat F * mat F).
  Variable rank : nat -> nat -> mat F -> nat.
  Variable ordqz : nat -> mat F -> mat F -> res (schur F).
  Variable inv : nat -> mat F -> res (mat F).
  Variable qz : nat -> mat F -> mat F -> res (mat F * mat F * mat F * mat F).
  Variable solve : nat -> nat -> mat F -> mat F -> res (mat F).
  Notation space := (whole_space F O P ltb nan minimize grad qr rank ordqz).
  Notation solver_ := (whole_solver F O P eqb nan minimize grad jacobian inv qz solve).
  Notation mstate := (ModelState.mstate F (space_of F) (rules F)).
  Notation definition := (ModelState.definition F (space_of F) (rules F)).
  Notation derived := (ModelState.derived F (space_of F) (rules F)).
  Notation altered := (ModelState.altered F (space_of F) (rules F)).
  Notation current := (ModelStateProofs.current F P (r0 O) isnum (space_of F) (rules F) space).
  Notation consistent := (ModelStateProofs.consistent F P (r0 O) isnum (space_of F) (rules F) space).
  Notation similar := (ModelStateProofs.similar F).
  Notation fresh_of := (ModelStateProofs.fresh_of F (space_of F) space).
  Notation read_space := (ModelState.read F P (r0 O) isnum _ _ space RSpace).
  Notation inits m := (map ev_init (d_endog F (definition m))).
  Notation as_matrix A := (match A with M2 _ _ J => J | V1 _ J => fun i _ => J i | S0 x => fun _ _ => x end).

  Lemma up_to_date_spec (m m1 : mstate) : current m -> up_to_date F O P isnum space m = Ok m1 ->
    consistent m1 /\ similar (definition m) (definition m1) /\ read_space m = (m1, Ok (VSpace (c_space _ _ (derived m1)))).
  Proof using.
    intros C H; unfold up_to_date in H; unfold ModelState.read; destruct (ensure F P (r0 O) isnum _ _ space (altered m) m) as [m' [[]|e]] eqn:E; [|discriminate H]; injection H as ->.
    unfold ensure in E; destruct (altered m) eqn:A.
    - destruct (update_spec F P (r0 O) isnum _ _ space _ _ _ E) as (A1 & _ & S & U); destruct (U eq_refl) as (_ & _ & Co & _).
      split; [exact Co|]; split; [destruct S as [[_ S]|(_ & X & _)]; [exact S|contradiction]|reflexivity].
    - injection E as <-; destruct C as [C|(_ & _ & C)]; [congruence|]; split; [exact C|]; split; [apply similar_refl|reflexivity].
  Qed.
  Lemma up_to_date_current (m m1 : mstate) : current m -> up_to_date F O P isnum space m = Ok m1 -> current m1.
  Proof using.
    intros C H; unfold up_to_date, ensure in H; destruct (altered m) eqn:A; [|injection H as <-; exact C].
    destruct (ModelState.update F P (r0 O) isnum _ _ space m) as [m' [[]|e]] eqn:E; [|discriminate H]; injection H as <-; exact (current_update F P (r0 O) isnum _ _ space _ _ C E).
  Qed.

  (** The solution that a model has, if it has one, is that of its present equations. *)
  Definition settled (m : mstate) : Prop :=
    ModelState.solution _ _ _ m = None \/ exists s x st dy sp s1, ModelState.solution _ _ _ m = Some s /\ fresh_of (definition m) x st dy sp /\
      solver_ None (inits m) st dy sp = Ok s1 /\ rule_parts F s1 = rule_parts F s.
  Lemma solve_settled (truthy : F -> bool) (float_of : text -> option F) (trunc : F -> option Z) (parse_text : text -> res (ast F)) o m m' s :
    current m -> ModelState.solve F P (r0 O) isnum _ _ space solver_ o m = (m', Ok s) -> settled m'.
  Proof using.
    intros C H; destruct (solve_current F P (r0 O) truthy isnum float_of trunc parse_text _ _ space solver_ _ _ _ _ C H) as (E & x & st & dy & sp & Fr & So).
    right; exists s, x, st, dy, sp; destruct So as [[_ So]|(_ & s1 & sg & S1 & _ & S2)]; [exists s; auto|exists s1; split; [exact E|]; split; [exact Fr|]; split; [exact S1|]].
    cbn [whole_solver] in S2; destruct s1 as [gy gu|]; [|discriminate S2].
    apply bind_ok in S2 as (ss & _ & S2); apply bind_ok in S2 as (Bh & _ & S2); apply bind_ok in S2 as ([[[xx xu] uu] dl] & _ & S2); injection S2 as <-; reflexivity.
  Qed.

  Lemma rules_spec m m1 g : current m -> settled m -> rules_of F O P isnum space solver_ m = (m1, Ok g) ->
    current m1 /\ similar (definition m) (definition m1) /\ (exists m2, up_to_date F O P isnum space m = Ok m2 \/ m1 = m) /\
    exists x st dy sp s1, fresh_of (definition m) x st dy sp /\ solver_ None (inits m) st dy sp = Ok s1 /\ rule_parts F s1 = g.
  Proof using.
    intros C S H; unfold rules_of in H; destruct S as [S|(s & x & st & dy & sp & s1 & S & Fr & So & Ep)]; rewrite S in H.
    2:{ injection H as <- <-; split; [exact C|]; split; [apply similar_refl|]; split; [exists m; right; reflexivity|]; exists x, st, dy, sp, s1; auto. }
    destruct (ModelState.solve F P (r0 O) isnum _ _ space solver_ 1 m) as [m' [s|e]] eqn:E; [|discriminate H]; injection H as -> <-.
    unfold ModelState.solve in E; cbn [Nat.eqb] in E; unfold ModelState.solve_one in E.
    destruct (ensure F P (r0 O) isnum _ _ space (altered m) m) as [m2 [[]|e]] eqn:E1; [|discriminate E].
    assert (U : up_to_date F O P isnum space m = Ok m2) by (unfold up_to_date; rewrite E1; reflexivity).
    destruct (up_to_date_spec m m2 C U) as (Co & Si & _); pose proof (up_to_date_current m m2 C U) as C2.
    unfold ModelState.finish in E; destruct (solver_ None _ _ _ _) as [s'|] eqn:So; [|discriminate E]; injection E as <- ->; cbn [ModelState.definition].
    split; [exact C2|]; split; [exact Si|]; split; [exists m2; left; exact U|].
    exists (c_index _ _ (derived m2)), (c_steady _ _ (derived m2)), (c_dynamic _ _ (derived m2)), (c_space _ _ (derived m2)), s; split; [|split; [|reflexivity]].
    - apply (fresh_similar F _ space _ _ _ _ _ _ Si), Co.
    - rewrite <- (proj2 (similar_names F _ _ Si)); exact So.
  Qed.

  Lemma space_read m m1 x st dy sp : current m -> up_to_date F O P isnum space m = Ok m1 -> fresh_of (definition m) x st dy sp ->
    derived m1 = Cache _ _ x st dy sp (c_sigma _ _ (derived m1)) /\ read_space m = (m1, Ok (VSpace sp)) /\
    own_ss F O P nan minimize m1 = Ok (sp_ss sp).
  Proof using.
    intros C U Fr; destruct (up_to_date_spec m m1 C U) as ([Fr1 _] & Si & Rd).
    apply (fresh_similar F _ space _ _ _ _ _ _ Si) in Fr; destruct (fresh_fun F _ space _ _ _ _ _ _ _ _ _ _ _ _ _ Fr Fr1) as (X1 & X2 & X3 & X4).
    rewrite X4 in Rd; split; [|split; [exact Rd|]].
    - destruct (derived m1); cbn in *; congruence.
    - unfold own_ss; rewrite X2, X3.
      destruct (fresh_built F O P ltb nan minimize grad qr rank ordqz _ _ _ _ _ _ _ _ _ Fr) as (_ & _ & _ & V & _); exact V.
  Qed.

  Lemma other_parts ref ma a : current ma -> other_regime F O P isnum nan minimize grad space ref ma = Ok a ->
    exists ma' x st dy sp, read_space ma = (ma', Ok (VSpace sp)) /\ fresh_of (definition ma) x st dy sp /\ regime_of_model F O P grad dy (sp_ss sp) ref = Ok a.
  Proof using.
    intros C H; unfold other_regime in H; apply bind_ok in H as (m1 & U & H); apply bind_ok in H as (ss & V & H).
    destruct (up_to_date_spec ma m1 C U) as ([Fr _] & Si & _); apply (fresh_similar F _ space _ _ _ _ _ _ Si) in Fr.
    destruct (space_read _ _ _ _ _ _ C U Fr) as (D & R & O1); rewrite O1 in V; injection V as <-.
    exists m1, (c_index _ _ (derived m1)), (c_steady _ _ (derived m1)), (c_dynamic _ _ (derived m1)), (c_space _ _ (derived m1)); auto.
  Qed.
  Lemma reference_parts m m1 g r : current m -> settled m -> rules_of F O P isnum space solver_ m = (m1, Ok g) ->
    reference F O P isnum nan minimize grad space m1 = Ok r ->
    exists m' x st dy sp s1, read_space m = (m', Ok (VSpace sp)) /\ fresh_of (definition m) x st dy sp /\ solver_ None (inits m) st dy sp = Ok s1 /\ rule_parts F s1 = g /\
      r = (Regime F (r_index F dy) (as_matrix (sp_jac sp)) (vzero F O), sp_ss sp).
  Proof using.
    intros C S H R; destruct (rules_spec _ _ _ C S H) as (C1 & Si & (m2 & U) & x & st & dy & sp & s1 & Fr & So & Ep).
    unfold reference in R; apply bind_ok in R as (m3 & U3 & R); apply bind_ok in R as (ss & V & R); apply bind_ok in R as (A & J & R); injection R as <-.
    destruct (space_read m1 m3 x st dy sp C1 U3 (proj1 (fresh_similar F _ space _ _ _ _ _ _ Si) Fr)) as (D & _ & O1); rewrite O1 in V; injection V as <-.
    rewrite D in *; cbn [c_dynamic] in *.
    destruct (fresh_built F O P ltb nan minimize grad qr rank ordqz _ _ _ _ _ _ _ _ _ Fr) as (_ & _ & _ & _ & J1 & _); rewrite J1 in J; injection J as <-.
    assert (Rd : exists m', read_space m = (m', Ok (VSpace sp))).
    { destruct U as [U| ->]; [exists m2; apply (space_read m m2 x st dy sp C U Fr)|exists m3; apply (space_read m m3 x st dy sp C U3 Fr)]. }
    destruct Rd as (m' & Rd); exists m', x, st, dy, sp, s1; auto.
  Qed.
End Models.
