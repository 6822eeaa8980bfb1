(** The paths of the returned rule are the bounded solutions of the linearised model. *)
From Verif Require Import Base Nd NdProofs Mat MatProofs SimSpec Indexing IndexingSpec IndexingProofs IndexingProofs2 SummaryProofs Moments
  OrderProofs FirstOrder FirstOrderSpec FirstOrderProofs FirstOrderProofs2 FirstOrderProofs3 FirstOrderProofs4 FirstOrderProofs5 SylvesterSpec
  StableSpec StableProofs StableProofs2 StableProofs3.

Section Bounds.
  Variable F : Type.
  Variable O : rops F.
  Variable finv : F -> F.
  Variable FT : is_field O finv.
  Let FT' : field_theory (r0 O) (r1 O) (radd O) (rmul O) (rsub O) (ropp O) (rdiv O) finv eq := FT.
  Let RT : is_ring O := F_R FT'.
  Let RT' : ring_theory (r0 O) (r1 O) (radd O) (rmul O) (rsub O) (ropp O) eq := RT.
  Add Ring FRst3 : RT'.
  Variable le : F -> F -> Prop.
  Hypothesis OR : is_ordered O le.
  Local Notation bnd := (StableProofs.bnd F O le).

  (** Bounds of every variable, and of all of them. *)
  Lemma wider B B' x : le B B' -> le (ropp O B) x /\ le x B -> le (ropp O B') x /\ le x B'.
  Proof using FT OR.
    intros H [H1 H2]; split; [|apply (o_trans _ _ OR _ B); assumption].
    apply (o_trans _ _ OR _ (ropp O B)); [|exact H1]; apply (ge0 F O finv FT le OR).
    replace (rsub O (ropp O B) (ropp O B')) with (rsub O B' B) by ring; apply (sub0 F O finv FT le OR), H.
  Qed.
  Lemma all_bounded m (y : nat -> nat -> F) : (forall v, v < m -> bnd (fun t => y t v)) -> bounded F O le m y.
  Proof using FT OR.
    induction m as [|m IH]; intros H; [exists (r0 O); intros t v Hv; lia|].
    destruct (IH (fun v Hv => H v (Nat.lt_lt_succ_r _ _ Hv))) as [B HB].
    destruct (of_bnd F O finv FT le OR _ (H m (Nat.lt_succ_diag_r m))) as [B' HB'].
    destruct (o_total _ _ OR B B') as [G|G].
    - exists B'; intros t v Hv; destruct (Nat.eq_dec v m) as [->|Ne]; [apply HB'|apply (wider B); [exact G|apply HB; lia]].
    - exists B; intros t v Hv; destruct (Nat.eq_dec v m) as [->|Ne]; [apply (wider B'); [exact G|apply HB']|apply HB; lia].
  Qed.
  Lemma each_bnd m (y : nat -> nat -> F) v : bounded F O le m y -> v < m -> bnd (fun t => y t v).
  Proof using FT OR. intros [B H] Hv; apply (bnd_of F O finv FT le OR B); intros t; apply H, Hv. Qed.
  Lemma bnd_unshift (x : nat -> F) : bnd (fun t => x (S t)) -> bnd x.
  Proof using FT OR.
    intros [B H]; exists (radd O (rmul O (x 0) (x 0)) B); intros [|t].
    - apply (ge0 F O finv FT le OR); replace (rsub O (radd O (rmul O (x 0) (x 0)) B) (rmul O (x 0) (x 0))) with B by ring.
      apply (o_trans _ _ OR _ (rmul O (x 1) (x 1))); [apply (sq_nonneg F O finv FT le OR)|apply H].
    - apply (o_trans _ _ OR _ B); [apply H|]; apply (ge0 F O finv FT le OR); replace (rsub O (radd O (rmul O (x 0) (x 0)) B) B) with (rmul O (x 0) (x 0)) by ring.
      apply (sq_nonneg F O finv FT le OR).
  Qed.
  (** A sequence that stays bounded when its [t]-th member is multiplied by [t] vanishes. *)
  Hypothesis AR : archimedean F O le.
  Lemma number_add a b : number O (a + b) = radd O (number O a) (number O b).
  Proof using FT. induction b as [|b IH]; [rewrite Nat.add_0_r; cbn [number]; ring|]; rewrite Nat.add_succ_r; cbn [number]; rewrite IH; ring. Qed.
  Lemma number_nonneg a : le (r0 O) (number O a).
  Proof using FT OR.
    induction a as [|a IH]; [apply (le_refl F O le OR)|]; cbn [number]; apply (add_nonneg F O finv FT le OR); [exact IH|].
    replace (r1 O) with (rmul O (r1 O) (r1 O)) by ring; apply (sq_nonneg F O finv FT le OR).
  Qed.
  Lemma below_of B e m r x : le (r0 O) e -> le B (rmul O e (number O m)) -> le (rmul O (number O (m + S r)) x) B -> le x e.
  Proof using FT OR.
    intros He HB Hx; destruct (o_total _ _ OR x e) as [G|G]; [exact G|].
    assert (Hx0 : le (r0 O) x) by (apply (o_trans _ _ OR _ e); assumption).
    apply (o_trans _ _ OR _ (r0 O)); [|exact He].
    apply (o_trans _ _ OR _ (rmul O (number O (S r)) x)).
    - apply (ge0 F O finv FT le OR); cbn [number]; match goal with |- le _ ?a => replace a with (rmul O (number O r) x) by ring end.
      apply (o_mul _ _ OR); [apply number_nonneg|exact Hx0].
    - apply (ge0 F O finv FT le OR).
      replace (rsub O (r0 O) (rmul O (number O (S r)) x)) with
        (radd O (rsub O (rmul O (number O m) x) (rmul O (number O m) e)) (radd O (rsub O (rmul O e (number O m)) B) (rsub O B (rmul O (number O (m + S r)) x))))
        by (rewrite number_add; ring).
      apply (add_nonneg F O finv FT le OR); [|apply (add_nonneg F O finv FT le OR)]; apply (sub0 F O finv FT le OR); try assumption.
      apply (mul_nonneg_le F O finv FT le OR); [apply number_nonneg|exact G].
  Qed.
  Lemma vanish_one (x : nat -> F) : bnd (fun t => rmul O (number O t) (x (S t))) ->
    forall e, ~ le e (r0 O) -> exists T, forall t, T <= t -> le (ropp O e) (x t) /\ le (x t) e.
  Proof using FT OR AR.
    intros Hb e He; destruct (of_bnd F O finv FT le OR _ Hb) as [B HB].
    destruct (AR (rdiv O B e)) as [m Hm].
    assert (He0 : le (r0 O) e) by (destruct (o_total _ _ OR (r0 O) e); [assumption|contradiction]).
    assert (Ne : e <> r0 O) by (intros ->; apply He, (le_refl F O le OR)).
    assert (G : le B (rmul O e (number O m))).
    { pose proof (mul_nonneg_le F O finv FT le OR e _ _ He0 Hm) as G; replace (rmul O e (rdiv O B e)) with B in G; [exact G|].
      rewrite (Fdiv_def FT'), (Rmul_comm RT' B), (Rmul_assoc RT'), (Rmul_comm RT' e), (Finv_l FT' e Ne), (Rmul_1_l RT'); reflexivity. }
    exists (S (m + 1)); intros [|t] Ht; [lia|].
    specialize (HB t) as [H1 H2]; assert (Et : number O t = number O (m + S (t - m - 1))) by (f_equal; lia); rewrite Et in H1, H2.
    split; [|exact (below_of B e m _ _ He0 G H2)].
    apply (ge0 F O finv FT le OR); replace (rsub O (x (S t)) (ropp O e)) with (rsub O e (ropp O (x (S t)))) by ring; apply (sub0 F O finv FT le OR).
    apply (below_of B e m (t - m - 1) _ He0 G), (ge0 F O finv FT le OR).
    match goal with |- le _ ?a => replace a with (rsub O (rmul O (number O (m + S (t - m - 1))) (x (S t))) (ropp O B)) by ring end.
    apply (sub0 F O finv FT le OR), H1.
  Qed.
  Lemma all_vanish m (y : nat -> nat -> F) : (forall v, v < m -> bnd (fun t => rmul O (number O t) (y (S t) v))) -> vanishes F O le m y.
  Proof using FT OR AR.
    intros H e He; induction m as [|m IH]; [exists 0; intros t v _ Hv; lia|].
    destruct (IH (fun v Hv => H v (Nat.lt_lt_succ_r _ _ Hv))) as [T HT].
    destruct (vanish_one (fun t => y t m) (H m (Nat.lt_succ_diag_r m)) e He) as [T' HT'].
    exists (T + T'); intros t v Ht Hv; destruct (Nat.eq_dec v m) as [->|Ne]; [apply HT'; lia|apply HT; lia].
  Qed.
End Bounds.

Section Main.
  Variable F : Type.
  Variable O : rops F.
  Variable finv : F -> F.
  Variable FT : is_field O finv.
  Let FT' : field_theory (r0 O) (r1 O) (radd O) (rmul O) (rsub O) (ropp O) (rdiv O) finv eq := FT.
  Let RT : is_ring O := F_R FT'.
  Let RT' : ring_theory (r0 O) (r1 O) (radd O) (rmul O) (rsub O) (ropp O) eq := RT.
  Add Ring FRst4 : RT'.
  Variable le : F -> F -> Prop.
  Hypothesis OR : is_ordered O le.
  Variable ltb : F -> F -> bool.
  Hypothesis Hltb : forall x y, ltb x y = false <-> le y x.
  Variable qr : nat -> nat -> mat F -> res (mat F * mat F).
  Variable rank : nat -> nat -> mat F -> nat.
  Variable ordqz : nat -> mat F -> mat F -> res (schur F).
  Variable inv : nat -> mat F -> res (mat F).
  Variable solve : nat -> nat -> mat F -> mat F -> res (mat F).
  Hypothesis Hqr : qr_routine F O qr.
  Hypothesis Hqz : schur_routine F O le ordqz.
  Hypothesis Hinv : inverse_routine F O inv.
  Hypothesis Hsolve : linear_routine F O solve.
  Hypothesis Hsing : refuses_singular F O solve.
  Hypothesis Hfin : finite_quotients F O ordqz.
  Hypothesis AR : archimedean F O le.
  Local Notation rsum := (rsum F O).
  Local Notation mmul := (mmul F O).
  Local Notation mid := (mid F O).
  Local Notation mtr := (mtr F).
  Local Notation meq := (meq F).
  Local Notation bnd := (StableProofs.bnd F O le).
  Variable L : list (list Z).
  Variable k : nat.
  Hypothesis all0 : forall i, i < List.length L -> at_k L i 0 = true.
  Let X := array L k.
  Let n := List.length L.
  Let w := List.length (timed_vars L) + k.
  Let ns := List.length (St L).
  Let npb := List.length (PB L).
  Let nm := List.length (MX L).
  Let npf := List.length (PF L).
  Let nb := npb + nm.
  Let nf := nm + npf.
  Let N := nb + nf.
  Let nd := npb + nf.
  Hypothesis Hnb : 0 < nb.
  Variable f : mat F.
  Let J := M2 n w f.

  (** The rotation can be turned back. *)
  Lemma rotated_back a : rotated F O qr rank X J = Ok (M2 n w a) -> exists Q, meq n w a (mmul n Q f).
  Proof using FT all0 Hnb.
    intros H; unfold rotated in H; unfold X in H; rewrite (dc_static L k all0) in H; cbn [bind] in H.
    destruct (map (column L k 0) (St L)) as [|c0 cs] eqn:E.
    - injection H as <-; exists mid; symmetry; apply (mmul_id_l F O RT).
    - rewrite <- E in *; clear c0 cs E; unfold J, n, w in H; rewrite (take_St F L k all0) in H; cbn [bind] in H.
      destruct (qr _ _ _) as [[Q R]|] eqn:EQ; cbn [bind fst snd] in H; [|discriminate H].
      destruct (_ =? _); [|discriminate H]; unfold ndot, nmatmul in H; rewrite Nat.eqb_refl in H; injection H as <-.
      exists (mtr Q); intros i j _ _; reflexivity.
  Qed.
  (** An equation in the order of the decision rules. *)
  Lemma positions (a : mat F) lag now next u i :
    radd O (rsum (List.length (timed_vars L)) (fun c => rmul O (a i c) (dated F lag now next (nth c (timed_vars L) (0, 0%Z)))))
      (rsum k (fun l => rmul O (a i (List.length (timed_vars L) + l)%nat) (u l))) =
    radd O (radd O (radd O (radd O (rsum ns (fun l => rmul O (As_ F L k a i l) (now (nth l (order L) 0)))) (rsum nd (fun l => rmul O (A0d_ F L k a i l) (now (nth (ns + l)%nat (order L) 0)))))
      (rsum nb (fun j => rmul O (Am_ F L k a i j) (lag (nth j (PB L ++ MX L) 0))))) (rsum nf (fun l => rmul O (Ap_ F L k a i l) (next (nth (ns + (npb + l))%nat (order L) 0))))) (rsum k (fun l => rmul O (Fu_ F L k a i l) (u l))).
  Proof using FT all0 Hnb.
    rewrite (timed_sum F O RT L k all0 (a i) lag now next).
    rewrite !app_length; unfold order at 1; rewrite !app_length.
    change (List.length (St L) + (List.length (PB L) + (List.length (MX L) + List.length (PF L)))) with (ns + nd).
    change (List.length (PB L) + List.length (MX L)) with nb; change (List.length (MX L) + List.length (PF L)) with nf.
    rewrite (rsum_split F O RT ns nd).
    assert (E1 : rsum ns (fun j => rmul O (a i (nth j (map (column L k 0) (order L)) 0)) (now (nth j (order L) 0))) = rsum ns (fun l => rmul O (As_ F L k a i l) (now (nth l (order L) 0)))).
    { apply rsum_ext; intros j Hj; unfold As_, pick_cols; do 2 f_equal; unfold order; rewrite map_app; apply app_nth1; rewrite map_length; exact Hj. }
    assert (E2 : rsum nd (fun j => rmul O (a i (nth (ns + j)%nat (map (column L k 0) (order L)) 0)) (now (nth (ns + j)%nat (order L) 0))) = rsum nd (fun l => rmul O (A0d_ F L k a i l) (now (nth (ns + l)%nat (order L) 0)))).
    { apply rsum_ext; intros j Hj; unfold A0d_, pick_cols; do 2 f_equal; unfold order; rewrite (map_app _ (St L)), app_nth2; rewrite map_length; [f_equal|]; unfold ns; lia. }
    assert (E3 : rsum nf (fun j => rmul O (a i (nth j (map (column L k 1) (MX L ++ PF L)) 0)) (next (nth j (MX L ++ PF L) 0))) = rsum nf (fun l => rmul O (Ap_ F L k a i l) (next (nth (ns + (npb + l))%nat (order L) 0)))).
    { apply rsum_ext; intros j Hj; unfold Ap_, pick_cols; do 2 f_equal; unfold ns; rewrite (pos_dynamic L k Hnb); unfold npb; rewrite (pos_forward L k Hnb); reflexivity. }
    assert (E4 : rsum k (fun l => rmul O (a i (List.length (timed_vars L) + l)%nat) (u l)) = rsum k (fun l => rmul O (Fu_ F L k a i l) (u l))).
    { apply rsum_ext; intros j Hj; unfold Fu_; rewrite seq_nth by exact Hj; reflexivity. }
    rewrite E1, E2, E3, E4; unfold Am_, pick_cols; ring.
  Qed.
  Lemma equation_flat (b : mat F) lag now next u i :
    radd O (rsum (List.length (timed_vars L)) (fun c => rmul O (b i c) (dated F lag now next (nth c (timed_vars L) (0, 0%Z)))))
      (rsum k (fun l => rmul O (b i (List.length (timed_vars L) + l)%nat) (u l))) =
    rsum w (fun c => rmul O (b i c) (if c <? List.length (timed_vars L) then dated F lag now next (nth c (timed_vars L) (0, 0%Z)) else u (c - List.length (timed_vars L)))).
  Proof using FT Hnb.
    unfold w; rewrite (rsum_split F O RT); f_equal; apply rsum_ext; intros c Hc; f_equal.
    - rewrite (proj2 (Nat.ltb_lt _ _) Hc); reflexivity.
    - rewrite (proj2 (Nat.ltb_ge (List.length (timed_vars L) + c) (List.length (timed_vars L))) ltac:(lia)); f_equal; lia.
  Qed.
  (** The equations hold of the rotated derivatives if and only if of the derivatives. *)
  Lemma rows_turned (a b Q : mat F) lag now next u : meq n w b (mmul n Q a) ->
    (forall i, i < n -> linear_equation F O L k a lag now next u i) -> forall i, i < n -> linear_equation F O L k b lag now next u i.
  Proof using FT Hnb.
    intros HQ H i Hi; unfold linear_equation; change (Sum F O) with rsum; etransitivity; [apply equation_flat|].
    set (z := fun c => if c <? List.length (timed_vars L) then dated F lag now next (nth c (timed_vars L) (0, 0%Z)) else u (c - List.length (timed_vars L))).
    transitivity (rsum n (fun l => rmul O (Q i l) (rsum w (fun c => rmul O (a l c) (z c))))).
    - rewrite (triple0 F O RT n w Q a z i); apply rsum_ext; intros c Hc; rewrite (HQ i c Hi Hc); reflexivity.
    - apply (rsum_all_zero F O RT); intros l Hl; specialize (H l Hl); unfold linear_equation in H; change (Sum F O) with rsum in H.
      unfold z; rewrite <- equation_flat; etransitivity; [apply f_equal, H|ring].
  Qed.
  Lemma order_has v : v < n -> exists j, j < n /\ nth j (order L) 0 = v.
  Proof using all0 Hnb w k.
    intros Hv; assert (H : In v (order L)).
    { apply (Permutation_in _ (Permutation_sym (order_perm L k all0))), in_seq; fold n; lia. }
    apply (In_nth _ _ 0) in H as (j & Hj & E); exists j; split; [|exact E].
    rewrite (Permutation_length (order_perm L k all0)), seq_length in Hj; exact Hj.
  Qed.

  Theorem first_order_stable s gy gu : state_space F O ltb qr rank ordqz X J = Ok s ->
    solve_first_order F O inv solve X s = Ok (gy, gu) -> separated F O le (eigen s) nb ->
    exists g, about F L g /\ proper g /\ rk g = k /\ gy = squeeze F (M2 (rn g) (rs g) (ry g)) /\ gu = squeeze F (M2 (rn g) (rk g) (ru g)) /\
      (forall lag u y, path_follows F O g lag u y <-> path_solves F O L k f lag u y /\ bounded F O le n y) /\
      (forall lag u y, bounded F O le k u -> path_shocked F O g lag u y -> bounded F O le n y) /\
      (forall y, (forall t, decides F O g (y t) (fun _ => r0 O) (y (S t))) -> vanishes F O le n y) /\
      (forall y, (forall t, decides F O g (y t) (fun _ => r0 O) (y (S t))) -> bounded F O le n y /\ forall v, v < n -> bnd (fun t => rmul O (number O t) (y (S t) v))).
  Proof using FT OR Hltb Hqr Hqz Hinv Hsolve Hsing Hfin AR all0 Hnb.
    intros Hs Hg Hsep.
    pose proof (eq_dec0 F O le OR ltb Hltb) as dec.
    apply (state_inv F O finv FT ltb qr rank ordqz Hqr L k all0 Hnb) in Hs as (a & Q & HA & HQ & Ha & Good & d & e & q & kk & Est & Eq & Ek & ->).
    cbn [eigen state_of] in Hsep.
    pose proof (Hqz _ _ _ _ Eq) as Sf; pose proof (Hfin _ _ _ _ Eq) as Fq.
    destruct (structural_good F O qr rank L k all0 J a HA Hnb Good) as (d' & e' & Es & HD1 & HD2 & HD3 & HD4 & HE1 & HE2 & HE3 & HE4).
    fold X in Es; unfold J, n, w in Es; unfold X in Es; rewrite Est in Es; injection Es as <- <-.
    fold ns npb nm npf in HD1, HD2, HD3, HD4, HE1, HE2, HE3, HE4, Sf, Fq, Hg; fold nb nf in HD1, HD2, HD3, HD4, HE1, HE2, HE3, HE4, Sf, Fq, Hg; fold nd in HD1, HD2, HD3, HD4, HE1, HE2, HE3, HE4; fold N in Sf, Fq, Hg.
    destruct (Nat.eq_dec (cut N kk) nb) as [Ec|Ec]; [|exfalso; exact (solve_misfit F O inv solve L k all0 a Hnb d e q (cut N kk) (gy, gu) (cut_bound N kk) Ec Hg)].
    rewrite Ec in Hg.
    destruct (solve_cases F O inv solve L k all0 a Hnb d e q) as [(p & it & iz & iA & Ep & Et & Ez & EA & R)|(er & _ & R)];
      cbv zeta in R; fold X nb in R; [|fold npb nm in R; fold nb in R; rewrite R in Hg; discriminate Hg].
    fold ns npb nm npf n in R, Ep, Et, Ez, EA; fold nb nf in R, Ep, Et, Ez, EA.
    destruct R as [[_ R]|(Hk & U & gy' & HU & Hgy & [(g & Esg & R)|(er & _ & R)])]; rewrite R in Hg; try discriminate Hg.
    injection Hg as <- <-.
    set (Zm := mtr (q_Z q)) in *.
    set (gm := mmul nb (mmul nb (mtr Zm) it) (mmul nb (q_S q) iz)) in *.
    set (gp := fun i j => ropp O (p i j)) in *.
    set (gu := fun i j => ropp O (g i j)).
    set (As := As_ F L k a) in *; set (A0d := A0d_ F L k a) in *; set (Am := Am_ F L k a) in *; set (Ap := Ap_ F L k a) in *; set (Fu := Fu_ F L k a) in *.
    assert (Sn : n = ns + nd) by exact (size_n L k all0).
    assert (Hp : forall i j, i < nf -> j < nb -> rsum nf (fun l => rmul O (Zm (nb + i) (nb + l)) (gp l j)) = ropp O (Zm (nb + i) j)).
    { intros i j Hi Hj; pose proof (Hsolve _ _ _ _ _ Ep i j Hi Hj) as S; change (Sum F O) with rsum in S; unfold sub in S; cbn [Nat.add] in S.
      rewrite <- S, <- (rsum_opp F O RT); apply rsum_ext; intros l _; unfold gp; ring. }
    assert (HiT : meq nb nb (mmul nb (q_T q) it) mid) by (intros i j Hi Hj; exact (proj1 (Hinv _ _ _ Et i j Hi Hj))).
    assert (HiW : meq nb nb (mmul nb (mtr Zm) iz) mid) by (intros i j Hi Hj; exact (proj1 (Hinv _ _ _ Ez i j Hi Hj))).
    assert (HWi : meq nb nb (mmul nb iz (mtr Zm)) mid) by (intros i j Hi Hj; exact (proj2 (Hinv _ _ _ Ez i j Hi Hj))).
    assert (HiA : meq ns ns (mmul ns As iA) mid) by (intros i j Hi Hj; exact (proj1 (Hinv _ _ _ EA i j Hi Hj))).
    assert (Hs0 : forall i j, i < nd -> j < ns -> As (ns + i) j = r0 O) by (intros i j Hi Hj; apply Ha; fold n; lia).
    assert (Hgu : forall i j, i < n -> j < k -> rsum n (fun l => rmul O (U_of F O ns npb nm npf As A0d Ap gp i l) (gu l j)) = ropp O (Fu i j)).
    { intros i j Hi Hj; rewrite <- (Hsolve _ _ _ _ _ Esg i j Hi Hj); change (Sum F O) with rsum; rewrite <- (rsum_opp F O RT); apply rsum_ext; intros l Hl.
      rewrite (HU i l Hi Hl); unfold gu; ring. }
    assert (HC : meq N nb (mmul nb (mmul N d (x_of F O nb gp)) gm) (mmul N e (x_of F O nb gp))).
    { apply (qz_core F O RT nb nf d e (q_Q q) (q_T q) (q_S q) Zm gp it iz).
      - exact (D_is F O finv FT le ns npb nm npf k d e q Sf).
      - exact (E_is F O finv FT le ns npb nm npf k d e q Sf).
      - exact (of_Zm F O le ns npb nm npf k d e q Sf).
      - exact (low_T F O le ns npb nm npf k d e q Sf).
      - exact (low_S F O finv FT le OR dec ns npb nm npf k d e q Sf Hsep).
      - exact Hp.
      - exact HiT.
      - exact HWi. }
    set (gyv := gy_of F O ns npb nm npf A0d Am Ap gm gp iA) in *.
    set (ok := holds F O ns npb nm npf k As A0d Am Ap Fu).
    (* the rule makes the equations hold *)
    assert (Rule_ok : forall lagP u nowP nextP,
      (forall j, j < n -> nowP j = radd O (rsum nb (fun j0 => rmul O (gyv j j0) (lagP j0))) (rsum k (fun l => rmul O (gu j l) (u l)))) ->
      (forall j, j < n -> nextP j = rsum nb (fun j0 => rmul O (gyv j j0) (nowP (ns + j0)%nat))) -> ok lagP nowP nextP u).
    { intros lagP u nowP nextP H1 H2 i Hi.
      pose proof (residual F O RT ns npb nm npf k As A0d Am Ap Fu Hs0 d e gm gp iA gu HD1 HD2 HD3 HD4 HE1 HE2 HE3 HE4 HC HiA) as Rs.
      fold nb nf in Rs; fold nd in Rs; rewrite <- Sn in Rs; fold nb nf in Hi; fold nd in Hi; rewrite <- Sn in Hi; exact (Rs Hgu lagP u nowP nextP H1 H2 i Hi). }
    assert (Gl : forall l j, l < nf -> j < nb -> gyv (ns + (npb + l)) j = gp l j).
    { intros l j Hl Hj; unfold gyv, gy_of, Mat.vcat; rewrite (proj2 (Nat.ltb_ge (ns + (npb + l)) ns) ltac:(lia)); replace (ns + (npb + l) - ns) with (npb + l) by lia.
      apply (gyd_forward F O RT ns npb nm npf d e gm gp HD3 HD4 HE3 HE4 HC l j Hl Hj). }
    assert (Gb : forall i j, i < nb -> gyv (ns + i) j = gm i j).
    { intros i j Hi; unfold gyv, gy_of, Mat.vcat; rewrite (proj2 (Nat.ltb_ge (ns + i) ns) ltac:(lia)); replace (ns + i - ns) with i by lia.
      unfold gyd_of; fold nb; rewrite (proj2 (Nat.ltb_lt i nb) Hi); reflexivity. }
    (* only the rule does, if tomorrow is as expected *)
    assert (Only : forall lagP u nowP nextP, ok lagP nowP nextP u ->
      (forall l, l < nf -> nextP (ns + (npb + l))%nat = rsum nb (fun j => rmul O (gp l j) (nowP (ns + j)%nat))) ->
      forall j, j < n -> nowP j = radd O (rsum nb (fun j0 => rmul O (gyv j j0) (lagP j0))) (rsum k (fun l => rmul O (gu j l) (u l)))).
    { intros lagP u nowP nextP H1 H2 j Hj.
      set (now' := fun j => radd O (rsum nb (fun j0 => rmul O (gyv j j0) (lagP j0))) (rsum k (fun l => rmul O (gu j l) (u l)))).
      set (next' := fun j => rsum nb (fun j0 => rmul O (gyv j j0) (now' (ns + j0)%nat))).
      pose proof (Rule_ok lagP u now' next' (fun _ _ => eq_refl) (fun _ _ => eq_refl)) as H1'.
      assert (H2' : forall l, l < nf -> next' (ns + (npb + l))%nat = rsum nb (fun j => rmul O (gp l j) (now' (ns + j)%nat))).
      { intros l Hl; unfold next'; apply rsum_ext; intros m Hm; rewrite Gl by assumption; reflexivity. }
      pose proof (today F O finv FT ns npb nm npf k As A0d Am Ap Fu gp lagP nowP nextP u H1 H2) as T1.
      pose proof (today F O finv FT ns npb nm npf k As A0d Am Ap Fu gp lagP now' next' u H1' H2') as T2.
      fold nb nf in T1, T2; fold nd in T1, T2; rewrite <- Sn in T1, T2.
      change (nowP j = now' j); apply (sub_eq F O finv FT ns npb nm npf k).
      refine (Hsing _ _ _ _ _ Esg (fun j => rsub O (nowP j) (now' j)) _ j Hj); intros i Hi; change (Sum F O) with rsum.
      transitivity (rsub O (rsum n (fun l => rmul O (U_of F O ns npb nm npf As A0d Ap gp i l) (nowP l))) (rsum n (fun l => rmul O (U_of F O ns npb nm npf As A0d Ap gp i l) (now' l)))).
      - rewrite <- (rsum_sub F O RT); apply rsum_ext; intros l Hl; rewrite (HU i l Hi Hl); ring.
      - rewrite T1, T2 by exact Hi; ring. }
    exists (Rule n nb k gy' gu (order L) (seq ns nb)).
    assert (EB : List.length (members_of L (backward L)) = nb).
    { rewrite (Permutation_length (backward_perm L k all0)), app_length; reflexivity. }
    split; [split; [reflexivity|split; [reflexivity|split; cbn [rstate rs]; [rewrite EB; reflexivity|symmetry; exact EB]]]|].
    split; [|split; [reflexivity|split; [reflexivity|split; [reflexivity|]]]].
    { split; [apply (order_perm L k all0)|]; cbn [rstate rs rn rk]; split; [apply seq_length|]; split; [apply seq_NoDup|].
      split; [intros x Hi; apply in_seq in Hi; unfold nd, nf, nb in *; lia|]; unfold nd, nf, nb in *; lia. }
    set (g' := Rule n nb k gy' gu (order L) (seq ns nb)).
    assert (St_at : forall j, j < nb -> nth (ns + j) (order L) 0 = nth j (PB L ++ MX L) 0).
    { intros j Hj; unfold ns; rewrite (pos_dynamic L k Hnb); apply pos_backward; exact Hj. }
    (* what the rule says, in its own order *)
    assert (Dec : forall before u after, decides F O g' before u after <->
      forall j, j < n -> after (nth j (order L) 0) = radd O (rsum nb (fun j0 => rmul O (gyv j j0) (before (nth j0 (PB L ++ MX L) 0)))) (rsum k (fun l => rmul O (gu j l) (u l)))).
    { intros before u after; unfold decides; cbn [rn rs rk ry ru g']; unfold var_at, state_at; cbn [rorder rstate]; change (Sum F O) with rsum.
      assert (K : forall j, j < n -> rsum nb (fun j0 => rmul O (gy' j j0) (before (nth (nth j0 (seq ns nb) 0) (order L) 0))) = rsum nb (fun j0 => rmul O (gyv j j0) (before (nth j0 (PB L ++ MX L) 0)))).
      { intros j Hj; apply rsum_ext; intros l Hl; rewrite (Hgy j l Hj Hl), seq_nth, St_at by exact Hl; reflexivity. }
      split; intros H j Hj; specialize (H j Hj); [rewrite <- K by exact Hj; exact H|rewrite K by exact Hj; exact H]. }
    (* equations, in that order *)
    destruct (rotated_back a HA) as (Q' & HQ').
    assert (Lin : forall lag now next u, (forall i, i < n -> linear_equation F O L k f lag now next u i) <->
      ok (fun j => lag (nth j (PB L ++ MX L) 0)) (fun j => now (nth j (order L) 0)) (fun j => next (nth j (order L) 0)) u).
    { intros lag now next u; transitivity (forall i, i < n -> linear_equation F O L k a lag now next u i).
      - split; intros H; [apply (rows_turned f a Q' lag now next u HQ' H)|apply (rows_turned a f Q lag now next u HQ H)].
      - unfold ok, holds; fold nb nf; fold nd; rewrite <- Sn; split; intros H i Hi; specialize (H i Hi); unfold linear_equation in *; change (Sum F O) with rsum in *.
        + rewrite <- H; symmetry; apply positions.
        + rewrite <- H; apply positions. }
    (* shocks in every period *)
    assert (Sh : forall lag u y, bounded F O le k u -> path_shocked F O g' lag u y -> bounded F O le n y).
    { intros lag u y Bu [_ P]; apply (all_bounded F O finv FT le OR); intros v Hv; destruct (order_has v Hv) as (j & Hj & <-).
      assert (Bs : forall i, i < nb -> bnd (fun t => y t (nth i (PB L ++ MX L) 0))).
      { intros i Hi; refine (states_bounded F O finv FT le OR dec ns npb nm npf k d e q Sf Fq Hsep it iz HiT HiW HWi (fun t i => y t (nth i (PB L ++ MX L) 0)) (fun t i => rsum k (fun l => rmul O (gu (ns + i)%nat l) (u (S t) l))) _ _ i Hi).
        - intros t m Hm; pose proof (proj1 (Dec _ _ _) (P t) (ns + m)%nat ltac:(fold nb in Hm; rewrite Sn; unfold nd, nb, nf in *; lia)) as H.
          rewrite St_at in H by exact Hm; rewrite H; f_equal; apply rsum_ext; intros j0 Hj0; rewrite Gb by exact Hm; reflexivity.
        - intros m Hm; apply (bnd_sum F O finv FT le OR k (fun t l => rmul O (gu (ns + m)%nat l) (u (S t) l))); intros l Hl.
          apply (bnd_scale F O finv FT le OR), (bnd_shift F O le (fun t => u t l)), (each_bnd F O finv FT le OR k u l Bu Hl). }
      apply (bnd_unshift F O finv FT le OR), (StableProofs.bnd_ext F O le (fun t => radd O (rsum nb (fun j0 => rmul O (gyv j j0) (y t (nth j0 (PB L ++ MX L) 0)))) (rsum k (fun l => rmul O (gu j l) (u (S t) l))))).
      - intros t; symmetry; apply (proj1 (Dec _ _ _) (P t) j Hj).
      - apply (bnd_add F O finv FT le OR).
        + apply (bnd_sum F O finv FT le OR nb (fun t j0 => rmul O (gyv j j0) (y t (nth j0 (PB L ++ MX L) 0)))); intros l Hl; apply (bnd_scale F O finv FT le OR), Bs, Hl.
        + apply (bnd_sum F O finv FT le OR k (fun t l => rmul O (gu j l) (u (S t) l))); intros l Hl; apply (bnd_scale F O finv FT le OR), (bnd_shift F O le (fun t => u t l)), (each_bnd F O finv FT le OR k u l Bu Hl). }
    (* without shocks *)
    assert (Van : forall y, (forall t, decides F O g' (y t) (fun _ => r0 O) (y (S t))) ->
      bounded F O le n y /\ forall v, v < n -> bnd (fun t => rmul O (number O t) (y (S t) v))).
    { intros y P.
      assert (By : bounded F O le n y).
      { apply (all_bounded F O finv FT le OR); intros v Hv; apply (bnd_unshift F O finv FT le OR); refine (each_bnd F O finv FT le OR n (fun t => y (S t)) v _ Hv).
        apply (Sh (y 0) (fun _ _ => r0 O)); [|split; [exact (P 0)|intros t; exact (P (S t))]].
        exists (r0 O); intros t l _; replace (ropp O (r0 O)) with (r0 O) by ring; split; apply (le_refl F O le OR). }
      assert (Ps : forall t j, j < n -> y (S t) (nth j (order L) 0) = rsum nb (fun j0 => rmul O (gyv j j0) (y t (nth j0 (PB L ++ MX L) 0)))).
      { intros t j Hj; rewrite (proj1 (Dec _ _ _) (P t) j Hj), (rsum_all_zero F O RT k) by (intros; ring); ring. }
      assert (Bs : forall i, i < nb -> bnd (fun t => rmul O (number O t) (y t (nth i (PB L ++ MX L) 0)))).
      { intros i Hi; refine (states_bounded F O finv FT le OR dec ns npb nm npf k d e q Sf Fq Hsep it iz HiT HiW HWi (fun t i => rmul O (number O t) (y t (nth i (PB L ++ MX L) 0))) (fun t i => y (S t) (nth i (PB L ++ MX L) 0)) _ _ i Hi).
        - intros t m Hm.
          assert (E : y (S t) (nth m (PB L ++ MX L) 0) = rsum nb (fun j => rmul O (gm m j) (y t (nth j (PB L ++ MX L) 0)))).
          { rewrite <- (St_at m Hm), (Ps t (ns + m)%nat) by (fold nb in Hm; rewrite Sn; unfold nd, nb, nf in *; lia).
            apply rsum_ext; intros j0 Hj0; rewrite Gb by exact Hm; reflexivity. }
          change (rmul O (radd O (number O t) (r1 O)) (y (S t) (nth m (PB L ++ MX L) 0)) =
            radd O (rsum nb (fun j => rmul O (gm m j) (rmul O (number O t) (y t (nth j (PB L ++ MX L) 0))))) (y (S t) (nth m (PB L ++ MX L) 0))).
          assert (E' : rsum nb (fun j => rmul O (gm m j) (rmul O (number O t) (y t (nth j (PB L ++ MX L) 0)))) = rmul O (number O t) (y (S t) (nth m (PB L ++ MX L) 0))); [|rewrite E'; ring].
          rewrite E, <- (rsum_mul_l F O RT); apply rsum_ext; intros j _; ring.
        - intros m Hm; refine (bnd_shift F O le (fun t => y t (nth m (PB L ++ MX L) 0)) (each_bnd F O finv FT le OR n y _ By _)).
          rewrite <- (St_at m Hm); assert (H : In (nth (ns + m) (order L) 0) (seq 0 n)); [|apply in_seq in H; lia].
          apply (Permutation_in _ (order_perm L k all0)), nth_In; rewrite (Permutation_length (order_perm L k all0)), seq_length; fold n; fold nb in Hm; rewrite Sn; unfold nd, nb, nf in *; lia. }
      split; [exact By|]; intros v Hv; destruct (order_has v Hv) as (j & Hj & <-).
      apply (StableProofs.bnd_ext F O le (fun t => rsum nb (fun j0 => rmul O (gyv j j0) (rmul O (number O t) (y t (nth j0 (PB L ++ MX L) 0)))))).
      - intros t; rewrite (Ps t j Hj), <- (rsum_mul_l F O RT); apply rsum_ext; intros j0 _; ring.
      - apply (bnd_sum F O finv FT le OR nb (fun t j0 => rmul O (gyv j j0) (rmul O (number O t) (y t (nth j0 (PB L ++ MX L) 0))))); intros l Hl; apply (bnd_scale F O finv FT le OR), Bs, Hl. }
    split; [|split; [exact Sh|split; [intros y P; apply (all_vanish F O finv FT le OR AR), Van, P|exact Van]]].
    intros lag u y; split.
    - intros [P0 P]; split; [split|].
      + apply Lin, Rule_ok.
        * apply Dec, P0.
        * intros j Hj; rewrite (proj1 (Dec _ _ _) (P 0) j Hj), (rsum_all_zero F O RT k) by (intros; ring).
          etransitivity; [apply (Radd_comm RT')|]; rewrite (Radd_0_l RT'); apply rsum_ext; intros j0 Hj0; rewrite St_at by exact Hj0; reflexivity.
      + intros t; apply Lin, Rule_ok.
        * apply (proj1 (Dec _ _ _) (P t)).
        * intros j Hj; rewrite (proj1 (Dec _ _ _) (P (S t)) j Hj), (rsum_all_zero F O RT k) by (intros; ring).
          etransitivity; [apply (Radd_comm RT')|]; rewrite (Radd_0_l RT'); apply rsum_ext; intros j0 Hj0; rewrite St_at by exact Hj0; reflexivity.
      + apply (Sh lag (fun t => match t with 0 => u | S _ => fun _ => r0 O end) y); [|split; [exact P0|exact P]].
        apply (all_bounded F O finv FT le OR); intros l _; exists (rmul O (u l) (u l)); intros [|t]; [apply (le_refl F O le OR)|].
        replace (rmul O (r0 O) (r0 O)) with (r0 O) by ring; apply (sq_nonneg F O finv FT le OR).
    - intros [[P0 P] B].
      set (yP := fun t j => y t (nth j (order L) 0)).
      assert (Hy : forall t, ok (fun j => yP t (ns + j)%nat) (yP (S t)) (yP (S (S t))) (fun _ => r0 O)).
      { intros t; pose proof (proj1 (Lin _ _ _ _) (P t)) as H; intros i Hi; specialize (H i Hi); etransitivity; [|exact H].
        f_equal; f_equal; f_equal; apply rsum_ext; intros j Hj; unfold yP; rewrite St_at by exact Hj; reflexivity. }
      assert (By : forall i, i < ns + (npb + (nm + npf)) -> bnd (fun t => yP t i)).
      { intros i Hi; apply (each_bnd F O finv FT le OR n y _ B).
        change (i < ns + nd) in Hi; rewrite <- Sn in Hi.
        assert (H : In (nth i (order L) 0) (seq 0 n)).
        { apply (Permutation_in _ (order_perm L k all0)), nth_In; rewrite (Permutation_length (order_perm L k all0)), seq_length; exact Hi. }
        apply in_seq in H; lia. }
      pose proof (forward_is F O finv FT le OR dec ns npb nm npf k As A0d Am Ap Fu Hs0 d e HD1 HD2 HD3 HD4 HE1 HE2 HE3 HE4 q Sf Fq Hsep gp iz Hp HWi AR yP Hy By) as Fw.
      split.
      + apply Dec; apply (Only _ u (yP 0) (yP 1)); [apply Lin, P0|intros l Hl; apply Fw, Hl].
      + intros t; apply Dec; intros j Hj; change (y (S t) (nth j (order L) 0)) with (yP (S t) j); rewrite (Only _ _ (yP (S t)) (yP (S (S t))) (Hy t) (fun l Hl => Fw (S t) l Hl) j Hj); f_equal.
        apply rsum_ext; intros j0 Hj0; unfold yP; rewrite St_at by exact Hj0; reflexivity.
  Qed.
End Main.
