(** The cut of the Schur factors, the equations over the timed variables, and the solution. *)
From Verif Require Import Base Nd NdProofs Mat MatProofs SimSpec Indexing IndexingSpec IndexingProofs IndexingProofs2 SummaryProofs Moments
  OrderProofs FirstOrder FirstOrderSpec FirstOrderProofs FirstOrderProofs2 FirstOrderProofs3.

(** ** The cut *)
Lemma first_true_spec v : forall i, match first_true v i with
  | Some m => i <= m < i + List.length v /\ nth (m - i) v false = true /\ (forall j, i <= j < m -> nth (j - i) v false = false)
  | None => forall j, j < List.length v -> nth j v false = false
  end.
Proof.
  induction v as [|b v IH]; intros i; cbn [first_true List.length]; [intros j Hj; lia|].
  destruct b.
  - split; [lia|]; rewrite Nat.sub_diag; split; [reflexivity|intros j Hj; lia].
  - specialize (IH (S i)); destruct (first_true v (S i)) as [m|].
    + destruct IH as (A & B & C); split; [lia|]; replace (m - i) with (S (m - S i)) by lia; split; [exact B|].
      intros j Hj; destruct (Nat.eq_dec j i) as [->|]; [rewrite Nat.sub_diag; reflexivity|].
      replace (j - i) with (S (j - S i)) by lia; apply C; lia.
    + intros [|j] Hj; [reflexivity|apply IH; lia].
Qed.
Lemma find_first_spec v kk : find_first v = Ok kk ->
  0 < List.length v /\
  ((exists m, m < List.length v /\ cut (List.length v) kk = m /\ nth m v false = true /\ (forall j, j < m -> nth j v false = false)) \/
   (cut (List.length v) kk = List.length v - 1 /\ forall j, j < List.length v -> nth j v false = false)).
Proof.
  intros H.
  assert (HL : 0 < List.length v) by (destruct v; [discriminate H|cbn; lia]).
  assert (Ek : kk = match first_true v 0 with Some i => Z.of_nat i | None => (-1)%Z end) by (destruct v; [discriminate H|unfold find_first in H; congruence]).
  subst kk; clear H; split; [exact HL|]; pose proof (first_true_spec v 0) as S; destruct (first_true v 0) as [m|].
  - left; destruct S as (A & B & C); rewrite Nat.sub_0_r in B; exists m; split; [lia|]; split.
    + unfold cut; rewrite (proj2 (Z.ltb_ge (Z.of_nat m) 0)) by lia; rewrite Nat2Z.id; lia.
    + split; [exact B|]; intros j Hj; specialize (C j ltac:(lia)); rewrite Nat.sub_0_r in C; exact C.
  - right; split; [|exact S]; unfold cut; change ((-1 <? 0)%Z) with true; cbv iota; lia.
Qed.
Lemma find_first_total v : v <> [] -> exists kk, find_first v = Ok kk.
Proof. destruct v; [contradiction|]; intros _; cbn; eauto. Qed.
Lemma cut_bound N kk : cut N kk <= N.
Proof. unfold cut; destruct (Z.ltb_spec kk 0); lia. Qed.

Section Roots.
  Variable F : Type.
  Variable O : rops F.
  Variable finv : F -> F.
  Variable FT : is_field O finv.
  Let FT' : field_theory (r0 O) (r1 O) (radd O) (rmul O) (rsub O) (ropp O) (rdiv O) finv eq := FT.
  Add Field Ffield41 : FT'.
  Variable le : F -> F -> Prop.
  Hypothesis OR : is_ordered O le.
  Variable ltb : F -> F -> bool.
  Hypothesis Hltb : forall x y, ltb x y = false <-> le y x.
  Notation above := (above F O ltb).

  Lemma ltb_true x y : ltb x y = true <-> ~ le y x.
  Proof using Hltb. rewrite <- Hltb; destruct (ltb x y); split; congruence. Qed.
  Lemma eq_dec0 (x y : F) : x = y \/ x <> y.
  Proof using Hltb OR.
    destruct (ltb x y) eqn:A; [right; intros ->; apply ltb_true in A; apply A, (le_refl F O le OR)|].
    destruct (ltb y x) eqn:B; [right; intros ->; apply ltb_true in B; apply B, (le_refl F O le OR)|].
    left; apply (o_anti _ _ OR); apply Hltb; assumption.
  Qed.
  Lemma above_iff e : above e = true <-> beyond_one F O le e.
  Proof using Hltb OR.
    destruct e as [re im| |]; cbn; [|tauto|split; [discriminate|tauto]].
    rewrite orb_true_iff, !andb_true_iff, !negb_true_iff, !Hltb, !ltb_true; split.
    - intros [H|[[H G] K]]; [left; exact H|right; split; [apply (o_anti _ _ OR); assumption|exact K]].
    - intros [H|[-> K]]; [left; exact H|right; split; [split; apply (le_refl F O le OR)|exact K]].
  Qed.
  Lemma opp_le x : le (r0 O) x -> le (ropp O x) (r0 O).
  Proof using FT OR. intros H; apply (le_sub F O finv FT le OR); replace (rsub O (r0 O) (ropp O x)) with x by ring; exact H. Qed.
  Lemma not_le x y : ~ le x y -> le y x.
  Proof using OR. intros H; destruct (o_total _ _ OR y x); [assumption|contradiction]. Qed.
  (** The two roots of a block are never separated by the first root beyond one. *)
  Lemma pair_above S T j e e' : pair_of F O le S T j e e' -> above e' = true -> above e = true.
  Proof using FT Hltb OR.
    intros (re & im & -> & -> & Him & _) H; apply above_iff in H; apply above_iff; cbn in *.
    destruct H as [H|[H K]]; [left; exact H|exfalso; apply K, opp_le, not_le, Him].
  Qed.
  Lemma pair_complex S T j e e' : pair_of F O le S T j e e' -> ~ not_complex F O e'.
  Proof using FT OR.
    intros (re & im & -> & -> & Him & _) H; cbn in H; apply Him.
    replace im with (r0 O); [apply (le_refl F O le OR)|]; transitivity (ropp O (ropp O im)); [rewrite H; ring|ring].
  Qed.
  Lemma sq_ge1 re im : le (r1 O) re -> le (r1 O) (radd O (rmul O re re) (rmul O im im)).
  Proof using FT OR.
    intros H; apply (o_trans _ _ OR _ (rmul O re re)).
    - replace (r1 O) with (rmul O (r1 O) (r1 O)) at 1 by ring.
      apply (mul_mono F O finv FT le OR); try assumption; apply (one_nonneg F O finv FT le OR).
    - apply (le_sub F O finv FT le OR); replace (rsub O (radd O (rmul O re re) (rmul O im im)) (rmul O re re)) with (rmul O im im) by ring.
      apply (sq_nonneg F O finv FT le OR).
  Qed.
  Lemma inside_not_above e : inside_circle F O le e -> above e = false.
  Proof using FT Hltb OR.
    intros H; destruct (above e) eqn:A; [exfalso|reflexivity]; apply above_iff in A; destruct e as [re im| |]; cbn in *; try contradiction.
    apply H, sq_ge1; destruct A as [A|[-> _]]; [apply not_le, A|apply (le_refl F O le OR)].
  Qed.
  Lemma outside_not_inside e : outside_circle F O le e -> ~ inside_circle F O le e.
  Proof using OR.
    destruct e as [re im| |]; cbn; [|tauto|tauto]; intros H G; destruct (o_total _ _ OR (r1 O) (radd O (rmul O re re) (rmul O im im))); contradiction.
  Qed.

  (** A cut that splits no block leaves zeros below. *)
  Lemma cut_zero N A B q kk m : schur_form F O le N A B q -> find_first (map above (q_eig q)) = Ok kk -> cut N kk = m -> 0 < m ->
    (exists e, In e (q_eig q) /\ beyond_one F O le e) \/ not_complex F O (last (q_eig q) Nan) ->
    m < N /\ (forall i j, m <= i < N -> j < m -> q_T q i j = r0 O) /\ (forall i j, m <= i < N -> j < m -> q_S q i j = r0 O).
  Proof using FT Hltb OR.
    intros Sf Hf Hc Hm Hx.
    pose proof (f_len _ _ _ _ _ _ _ Sf) as LN.
    apply find_first_spec in Hf as [L0 Hf]; rewrite map_length, LN in L0, Hf; rewrite Hc in Hf.
    assert (NE : forall j, j < N -> nth j (map above (q_eig q)) false = above (nth j (q_eig q) Nan)).
    { intros j Hj; rewrite (nth_indep _ false (above Nan)) by (rewrite map_length, LN; exact Hj); apply map_nth. }
    assert (Hl : m < N) by (destruct Hf as [(? & ? & -> & _)|[-> _]]; lia).
    split; [exact Hl|]; split; [intros i j Hi Hj; apply (f_T _ _ _ _ _ _ _ Sf); lia|].
    intros i j Hi Hj; destruct (Nat.eq_dec i (S j)) as [E|E]; [|apply (f_S _ _ _ _ _ _ _ Sf); lia].
    assert (j = m - 1 /\ i = m) as [-> ->] by lia; replace m with (S (m - 1)) at 1 by lia.
    destruct (eq_dec0 (q_S q (S (m - 1)) (m - 1)) (r0 O)) as [Z0|Z0]; [exact Z0|exfalso].
    apply (f_two _ _ _ _ _ _ _ Sf) in Z0; [|lia]; replace (S (m - 1)) with m in Z0 by lia.
    destruct Hf as [(m' & _ & <- & T & Fl)|[Em Fl]].
    - rewrite NE in T by lia; apply (pair_above _ _ _ _ _ Z0) in T; specialize (Fl (m - 1) ltac:(lia)); rewrite NE in Fl by lia; congruence.
    - destruct Hx as [(e & Ie & He)|Hx].
      + apply above_iff in He; apply (In_nth _ _ Nan) in Ie as (j' & Hj' & <-); rewrite LN in Hj'; specialize (Fl j' Hj'); rewrite NE in Fl by exact Hj'; congruence.
      + apply (pair_complex _ _ _ _ _ Z0); rewrite Em.
        assert (EL : last (q_eig q) Nan = nth (N - 1) (q_eig q) Nan).
        { rewrite <- LN; clear; induction (q_eig q) as [|x l IH]; [reflexivity|]; cbn [List.length last]; destruct l as [|y l]; [reflexivity|].
          rewrite IH; cbn [List.length]; replace (S (S (List.length l)) - 1) with (S (S (List.length l) - 1)) by lia; reflexivity. }
        rewrite <- EL; exact Hx.
  Qed.
End Roots.

(** ** The equations over the timed variables *)
Section Equations.
  Variable F : Type.
  Variable O : rops F.
  Variable RT : is_ring O.
  Let RT' : ring_theory (r0 O) (r1 O) (radd O) (rmul O) (rsub O) (ropp O) eq := RT.
  Add Ring FR42 : RT'.
  Local Notation rsum := (rsum F O).
  Variable L : list (list Z).
  Variable k : nat.
  Hypothesis all0 : forall i, i < List.length L -> at_k L i 0 = true.
  Let n := List.length L.
  Let tv := timed_vars L.

  Lemma lsum_nth (M : list nat) h : lsum F O (map h M) = rsum (List.length M) (fun j => h (nth j M 0)).
  Proof using RT. rewrite (rsum_lsum F O RT), <- (map_map (fun j => nth j M 0) h), map_nth_seq; reflexivity. Qed.
  Lemma timed_sum (f : nat -> F) lag now next :
    rsum (List.length tv) (fun c => rmul O (f c) (dated F lag now next (nth c tv (0, 0%Z)))) =
    radd O (radd O (rsum (List.length (PB L ++ MX L)) (fun j => rmul O (f (nth j (map (column L k (-1)) (PB L ++ MX L)) 0)) (lag (nth j (PB L ++ MX L) 0))))
      (rsum (List.length (order L)) (fun j => rmul O (f (nth j (map (column L k 0) (order L)) 0)) (now (nth j (order L) 0)))))
      (rsum (List.length (MX L ++ PF L)) (fun j => rmul O (f (nth j (map (column L k 1) (MX L ++ PF L)) 0)) (next (nth j (MX L ++ PF L) 0)))).
  Proof using RT all0.
    assert (M : forall M kk (v : nat -> F), rsum (List.length M) (fun j => rmul O (f (nth j (map (column L k kk) M) 0)) (v (nth j M 0))) =
      lsum F O (map (fun i => rmul O (f (column L k kk i)) (v i)) M)).
    { intros M kk v; rewrite (lsum_nth M (fun i => rmul O (f (column L k kk i)) (v i))); apply rsum_ext; intros j Hj; do 2 f_equal.
      rewrite (nth_indep _ 0 (column L k kk 0)) by (rewrite map_length; exact Hj); apply map_nth. }
    rewrite !M; clear M.
    rewrite (rsum_lsum F O RT).
    assert (E : map (fun c => rmul O (f c) (dated F lag now next (nth c tv (0, 0%Z)))) (seq 0 (List.length tv)) =
      map (fun p => rmul O (f (column L k (snd p) (fst p))) (dated F lag now next p)) tv).
    { transitivity (map (fun p => rmul O (f (column L k (snd p) (fst p))) (dated F lag now next p)) (map (fun i => nth i tv (0, 0%Z)) (seq 0 (List.length tv))));
        [|rewrite map_nth_seq; reflexivity].
      rewrite map_map; apply map_ext_in; intros c Hc; apply in_seq in Hc; f_equal; f_equal.
      symmetry; destruct (nth c tv (0, 0%Z)) as [v kk] eqn:Ev; cbn [fst snd].
      assert (Hn : nth_error tv c = Some (v, kk)) by (rewrite <- Ev; apply nth_error_nth'; lia).
      apply (column_unique L k); [|exact Hn].
      apply nth_error_In in Hn; unfold tv, timed_vars in Hn; apply in_flat_map in Hn as (z & Hz & Hn); apply in_map_iff in Hn as (u & Eu & _).
      injection Eu as _ <-; cbn in Hz; lia. }
    rewrite E; clear E; unfold tv, timed_vars; cbn [flat_map]; rewrite app_nil_r, !map_app, !(lsum_app F O RT), !map_map; cbn [fst snd dated].
    change (filter (fun i => at_k L i (-1)) (seq 0 (List.length L))) with (members_of L (backward L)).
    change (filter (fun i => at_k L i 1) (seq 0 (List.length L))) with (members_of L (forward L)).
    rewrite filter_all by (intros v Hv; apply in_seq in Hv; apply all0; lia).
    rewrite (lsum_perm F O RT _ _ (Permutation_map _ (backward_perm L k all0))), (lsum_perm F O RT _ _ (Permutation_map _ (forward_perm L k all0))).
    rewrite (lsum_perm F O RT _ _ (Permutation_map _ (Permutation_sym (order_perm L k all0)))).
    unfold dated; cbn [fst snd Z.eqb Pos.eqb]; rewrite !map_app, !(lsum_app F O RT); ring.
  Qed.
End Equations.

(** ** The solution solves the model *)
Section Main.
  Variable F : Type.
  Variable O : rops F.
  Variable finv : F -> F.
  Variable FT : is_field O finv.
  Let FT' : field_theory (r0 O) (r1 O) (radd O) (rmul O) (rsub O) (ropp O) (rdiv O) finv eq := FT.
  Let RT : is_ring O := F_R FT'.
  Let RT' : ring_theory (r0 O) (r1 O) (radd O) (rmul O) (rsub O) (ropp O) eq := RT.
  Add Ring FR43 : RT'.
  Variable le : F -> F -> Prop.
  Hypothesis OR : is_ordered O le.
  Variable ltb : F -> F -> bool.
  Hypothesis Hltb : forall x y, ltb x y = false <-> le y x.
  Variable qr : nat -> nat -> mat F -> res (mat F * mat F).
  Variable rank : nat -> nat -> mat F -> nat.
  Variable ordqz : nat -> mat F -> mat F -> res (schur F).
  Variable inv : nat -> mat F -> res (mat F).
  Variable solve : nat -> nat -> mat F -> mat F -> res (mat F).
  Hypothesis Hqr : qr_routine F O qr.
  Hypothesis Hqz : schur_routine F O le ordqz.
  Hypothesis Hinv : inverse_routine F O inv.
  Hypothesis Hsolve : linear_routine F O solve.
  Local Notation rsum := (rsum F O).
  Local Notation mmul := (mmul F O).
  Local Notation mid := (mid F O).
  Local Notation mtr := (mtr F).
  Local Notation meq := (meq F).
  Variable L : list (list Z).
  Variable k : nat.
  Hypothesis all0 : forall i, i < List.length L -> at_k L i 0 = true.
  Let X := array L k.
  Let n := List.length L.
  Let w := List.length (timed_vars L) + k.
  Let ns := List.length (St L).
  Let npb := List.length (PB L).
  Let nm := List.length (MX L).
  Let npf := List.length (PF L).
  Let nb := npb + nm.
  Let nf := nm + npf.
  Let N := nb + nf.
  Let nd := npb + nf.
  Hypothesis Hnb : 0 < nb.
  Variable f : mat F.
  Let J := M2 n w f.

  (** The factorisation behind a state space. *)
  Lemma state_inv s : state_space F O ltb qr rank ordqz X J = Ok s ->
    exists a Q, rotated F O qr rank X J = Ok (M2 n w a) /\ meq n w f (mmul n Q a) /\
      (forall i j, i < n -> j < ns -> ns <= i -> a i (nth j (map (column L k 0) (St L)) 0) = r0 O) /\ (0 < npb \/ nm = 1) /\
      exists d e q kk, structural F O qr rank X J = Ok (M2 N N d, M2 N N e, M2 n w a) /\ ordqz N e d = Ok q /\
        find_first (map (above F O ltb) (q_eig q)) = Ok kk /\ s = state_of F L k a d e q (cut N kk).
  Proof using RT Hnb all0 Hqr.
    intros H.
    destruct (structural F O qr rank X J) as [t|] eqn:Et; [|unfold state_space in H; rewrite Et in H; discriminate H].
    destruct (rotated F O qr rank X J) as [A|] eqn:EA; [|unfold structural in Et; rewrite EA in Et; discriminate Et].
    destruct (rotated_spec F O RT qr rank L k all0 f A Hqr EA) as (a & Q & -> & HQ & Ha).
    exists a, Q; split; [reflexivity|]; split; [exact HQ|]; split; [exact Ha|].
    assert (Good : 0 < npb \/ nm = 1).
    { destruct (Nat.eq_dec npb 0) as [Z0|Z0]; [|left; lia]; destruct (Nat.eq_dec nm 1) as [M1|M1]; [right; exact M1|exfalso].
      pose proof (structural_bad F O qr rank L k all0 J a EA Hnb Z0 M1) as B; fold X in B; congruence. }
    split; [exact Good|].
    destruct (structural_good F O qr rank L k all0 J a EA Hnb Good) as (d & e & Es & _).
    pose proof (state_space_eq F O ltb qr rank ordqz L k J a d e Es) as P; fold X in P; rewrite P in H; clear P.
    fold X in Es; fold npb nm npf in H, Es; fold nb nf in H, Es; fold N in H, Es.
    destruct (ordqz N e d) as [q|] eqn:Eq; [|discriminate H]; cbn [bind] in H.
    destruct (find_first _) as [kk|] eqn:Ek; [|discriminate H]; cbn [bind] in H; injection H as <-.
    exists d, e, q, kk; split; [rewrite <- Et; exact Es|]; split; [exact Eq|]; split; [exact Ek|]; reflexivity.
  Qed.

  Lemma pos_static j : j < ns -> nth j (order L) 0 = nth j (St L) 0.
  Proof. intros H; unfold order; apply app_nth1; exact H. Qed.
  Lemma pos_dynamic j : nth (ns + j) (order L) 0 = nth j (PB L ++ MX L ++ PF L) 0.
  Proof. unfold order; rewrite app_nth2 by (unfold ns; lia); f_equal; unfold ns; lia. Qed.
  Lemma pos_backward j : j < nb -> nth j (PB L ++ MX L ++ PF L) 0 = nth j (PB L ++ MX L) 0.
  Proof. intros H; rewrite app_assoc; apply app_nth1; rewrite app_length; exact H. Qed.
  Lemma pos_forward j : nth (npb + j) (PB L ++ MX L ++ PF L) 0 = nth j (MX L ++ PF L) 0.
  Proof. rewrite app_nth2 by (unfold npb; lia); f_equal; unfold npb; lia. Qed.

  Theorem first_order_solves s gy gu : state_space F O ltb qr rank ordqz X J = Ok s ->
    solve_first_order F O inv solve X s = Ok (gy, gu) ->
    exists g, about F L g /\ proper g /\ rk g = k /\ gy = squeeze F (M2 (rn g) (rs g) (ry g)) /\ gu = squeeze F (M2 (rn g) (rk g) (ru g)) /\
      ((exists e, In e (eigen s) /\ beyond_one F O le e) \/ not_complex F O (last (eigen s) Nan) -> solves_model F O L f g).
  Proof using FT OR Hltb Hqr Hqz Hinv Hsolve all0 Hnb.
    intros Hs Hg; apply state_inv in Hs as (a & Q & HA & HQ & Ha & Good & d & e & q & kk & Est & Eq & Ek & ->).
    pose proof (Hqz _ _ _ _ Eq) as Sf.
    destruct (structural_good F O qr rank L k all0 J a HA Hnb Good) as (d' & e' & Es & HD1 & HD2 & HD3 & HD4 & HE1 & HE2 & HE3 & HE4).
    fold X in Es; rewrite Est in Es; fold npb nm npf in Es; fold nb nf in Es; fold N in Es; injection Es as <- <-.
    fold ns npb nm npf in HD1, HD2, HD3, HD4, HE1, HE2, HE3, HE4; fold nb nf in HD1, HD2, HD3, HD4, HE1, HE2, HE3, HE4; fold nd in HD1, HD2, HD3, HD4, HE1, HE2, HE3, HE4.
    destruct (Nat.eq_dec (cut N kk) nb) as [Ec|Ec]; [|exfalso; exact (solve_misfit F O inv solve L k all0 a Hnb d e q (cut N kk) (gy, gu) (cut_bound N kk) Ec Hg)].
    rewrite Ec in Hg.
    destruct (solve_cases F O inv solve L k all0 a Hnb d e q) as [(p & it & iz & iA & Ep & Et & Ez & EA & R)|(er & _ & R)];
      cbv zeta in R; fold X nb in R; [|fold npb nm in R; fold nb in R; rewrite R in Hg; discriminate Hg].
    fold ns npb nm npf n in R, Ep, Et, Ez, EA; fold nb nf in R, Ep, Et, Ez, EA.
    destruct R as [[_ R]|(Hk & U & gy' & HU & Hgy & [(g & Esg & R)|(er & _ & R)])]; rewrite R in Hg; try discriminate Hg.
    injection Hg as <- <-.
    set (Zm := mtr (q_Z q)) in *.
    set (gm := mmul nb (mmul nb (mtr Zm) it) (mmul nb (q_S q) iz)) in *.
    set (gp := fun i j => ropp O (p i j)) in *.
    set (gu := fun i j => ropp O (g i j)).
    set (As := As_ F L k a) in *; set (A0d := A0d_ F L k a) in *; set (Am := Am_ F L k a) in *; set (Ap := Ap_ F L k a) in *; set (Fu := Fu_ F L k a) in *.
    assert (Sn : n = ns + nd) by exact (size_n L k all0).
    (* the factorisation *)
    assert (HD : meq N N d (mmul N (q_Q q) (mmul N (q_T q) Zm))).
    { intros i j Hi Hj; rewrite <- (f_B _ _ _ _ _ _ _ Sf i j Hi Hj); change (Sum F O) with rsum; unfold Mat.mmul; apply rsum_ext; intros x _.
      rewrite <- (rsum_mul_l F O RT); apply rsum_ext; intros y _; unfold Zm, Mat.mtr; ring. }
    assert (HE : meq N N e (mmul N (q_Q q) (mmul N (q_S q) Zm))).
    { intros i j Hi Hj; rewrite <- (f_A _ _ _ _ _ _ _ Sf i j Hi Hj); change (Sum F O) with rsum; unfold Mat.mmul; apply rsum_ext; intros x _.
      rewrite <- (rsum_mul_l F O RT); apply rsum_ext; intros y _; unfold Zm, Mat.mtr; ring. }
    assert (HZ : meq N N (mmul N (mtr Zm) Zm) mid).
    { intros i j Hi Hj; exact (proj2 (f_Z _ _ _ _ _ _ _ Sf) i j Hi Hj). }
    assert (Hp : forall i j, i < nf -> j < nb -> rsum nf (fun l => rmul O (Zm (nb + i) (nb + l)) (gp l j)) = ropp O (Zm (nb + i) j)).
    { intros i j Hi Hj; pose proof (Hsolve _ _ _ _ _ Ep i j Hi Hj) as S; change (Sum F O) with rsum in S; unfold sub in S; cbn [Nat.add] in S.
      rewrite <- S, <- (rsum_opp F O RT); apply rsum_ext; intros l _; unfold gp; ring. }
    assert (HiT : meq nb nb (mmul nb (q_T q) it) mid) by (intros i j Hi Hj; exact (proj1 (Hinv _ _ _ Et i j Hi Hj))).
    assert (HWi : meq nb nb (mmul nb iz (mtr Zm)) mid) by (intros i j Hi Hj; exact (proj2 (Hinv _ _ _ Ez i j Hi Hj))).
    assert (HiA : meq ns ns (mmul ns As iA) mid) by (intros i j Hi Hj; exact (proj1 (Hinv _ _ _ EA i j Hi Hj))).
    assert (Hs0 : forall i j, i < nd -> j < ns -> As (ns + i) j = r0 O) by (intros i j Hi Hj; apply Ha; lia).
    assert (Hgu : forall i j, i < n -> j < k -> rsum n (fun l => rmul O (U_of F O ns npb nm npf As A0d Ap gp i l) (gu l j)) = ropp O (Fu i j)).
    { intros i j Hi Hj; rewrite <- (Hsolve _ _ _ _ _ Esg i j Hi Hj); change (Sum F O) with rsum; rewrite <- (rsum_opp F O RT); apply rsum_ext; intros l Hl.
      rewrite (HU i l Hi Hl); unfold gu; ring. }
    exists (Rule n nb k gy' gu (order L) (seq ns nb)).
    assert (EB : List.length (members_of L (backward L)) = nb).
    { rewrite (Permutation_length (backward_perm L k all0)), app_length; reflexivity. }
    split; [split; [reflexivity|split; [reflexivity|split; cbn [rstate rs]; [rewrite EB; reflexivity|symmetry; exact EB]]]|].
    split; [|split; [reflexivity|split; [reflexivity|split; [reflexivity|]]]].
    - split; [apply (order_perm L k all0)|]; cbn [rstate rs rn rk]; split; [apply seq_length|]; split; [apply seq_NoDup|].
      split; [intros x Hi; apply in_seq in Hi; unfold nd, nf, nb in *; lia|]; unfold nd, nf, nb in *; lia.
    - cbn [eigen state_of]; intros Hx.
      destruct (cut_zero F O finv FT le OR ltb Hltb N _ _ q kk nb Sf Ek Ec Hnb Hx) as (_ & HT & HS).
      pose proof (qz_core F O RT nb nf d e (q_Q q) (q_T q) (q_S q) Zm gp it iz HD HE HZ HT HS Hp HiT HWi) as HC.
      intros lag now next u Hnow Hnext i Hi; cbn [rk].
      set (lagP := fun j => lag (nth j (PB L ++ MX L) 0)).
      set (nowP := fun j => now (nth j (order L) 0)).
      set (nextP := fun j => next (nth j (order L) 0)).
      set (eqn := fun (b : mat F) i => radd O (rsum (List.length (timed_vars L)) (fun c => rmul O (b i c) (dated F lag now next (nth c (timed_vars L) (0, 0%Z)))))
        (rsum k (fun l => rmul O (b i (List.length (timed_vars L) + l)%nat) (u l)))).
      assert (St_at : forall j, j < nb -> nth (nth j (seq ns nb) 0) (order L) 0 = nth j (PB L ++ MX L) 0).
      { intros j Hj; rewrite seq_nth by exact Hj; rewrite pos_dynamic; apply pos_backward; exact Hj. }
      assert (HnowP : forall j, j < n -> nowP j = radd O (rsum nb (fun j0 => rmul O (gy_of F O ns npb nm npf A0d Am Ap gm gp iA j j0) (lagP j0))) (rsum k (fun l => rmul O (gu j l) (u l)))).
      { intros j Hj; unfold nowP; etransitivity; [exact (Hnow j Hj)|]; cbn [rs rk ry ru]; change (Sum F O) with rsum; f_equal; apply rsum_ext; intros l Hl.
        rewrite (Hgy j l Hj Hl); f_equal; unfold lagP; rewrite <- St_at by exact Hl; reflexivity. }
      assert (HnextP : forall j, j < n -> nextP j = rsum nb (fun j0 => rmul O (gy_of F O ns npb nm npf A0d Am Ap gm gp iA j j0) (nowP (ns + j0)%nat))).
      { intros j Hj; unfold nextP; etransitivity; [exact (Hnext j Hj)|]; cbn [rs rk ry ru]; change (Sum F O) with rsum.
        rewrite (rsum_all_zero F O RT k) by (intros; ring).
        transitivity (rsum nb (fun j0 => rmul O (gy' j j0) (now (nth (nth j0 (seq ns nb) 0) (order L) 0)))); [unfold state_at; cbn [rstate rorder]; ring|].
        apply rsum_ext; intros l Hl; rewrite (Hgy j l Hj Hl); f_equal; unfold nowP; rewrite seq_nth by exact Hl; reflexivity. }
      assert (Res : forall i, i < n -> eqn a i = r0 O).
      { intros i0 Hi0.
        pose proof (residual F O RT ns npb nm npf k As A0d Am Ap Fu Hs0 d e gm gp iA gu HD1 HD2 HD3 HD4 HE1 HE2 HE3 HE4 HC HiA) as Rs.
        fold nb nf in Rs; fold nd in Rs; rewrite <- Sn in Rs.
        specialize (Rs Hgu lagP u nowP nextP HnowP HnextP i0 Hi0).
        rewrite <- Rs; unfold eqn.
        rewrite (timed_sum F O RT L k all0 (a i0) lag now next).
        rewrite !app_length; unfold order at 1; rewrite !app_length.
        change (List.length (St L) + (List.length (PB L) + (List.length (MX L) + List.length (PF L)))) with (ns + nd).
        change (List.length (PB L) + List.length (MX L)) with nb; change (List.length (MX L) + List.length (PF L)) with nf.
        rewrite (rsum_split F O RT ns nd).
        assert (E1 : rsum ns (fun j => rmul O (a i0 (nth j (map (column L k 0) (order L)) 0)) (now (nth j (order L) 0))) = rsum ns (fun l => rmul O (As i0 l) (nowP l))).
        { apply rsum_ext; intros j Hj; unfold nowP, As, As_, pick_cols; do 2 f_equal; unfold order; rewrite map_app; apply app_nth1; rewrite map_length; exact Hj. }
        assert (E2 : rsum nd (fun j => rmul O (a i0 (nth (ns + j)%nat (map (column L k 0) (order L)) 0)) (now (nth (ns + j)%nat (order L) 0))) = rsum nd (fun l => rmul O (A0d i0 l) (nowP (ns + l)%nat))).
        { apply rsum_ext; intros j Hj; unfold nowP, A0d, A0d_, pick_cols; do 2 f_equal; unfold order; rewrite (map_app _ (St L)), app_nth2; rewrite map_length; [f_equal|]; unfold ns; lia. }
        assert (E3 : rsum nf (fun j => rmul O (a i0 (nth j (map (column L k 1) (MX L ++ PF L)) 0)) (next (nth j (MX L ++ PF L) 0))) = rsum nf (fun l => rmul O (Ap i0 l) (nextP (ns + (npb + l))%nat))).
        { apply rsum_ext; intros j Hj; unfold nextP, Ap, Ap_, pick_cols; do 2 f_equal; rewrite pos_dynamic, pos_forward; reflexivity. }
        assert (E4 : rsum k (fun l => rmul O (a i0 (List.length (timed_vars L) + l)%nat) (u l)) = rsum k (fun l => rmul O (Fu i0 l) (u l))).
        { apply rsum_ext; intros j Hj; unfold Fu, Fu_; rewrite seq_nth by exact Hj; reflexivity. }
        rewrite E1, E2, E3, E4; unfold Am, Am_, pick_cols, lagP; ring. }
      change (eqn f i = r0 O).
      set (z := fun c => if c <? List.length (timed_vars L) then dated F lag now next (nth c (timed_vars L) (0, 0%Z)) else u (c - List.length (timed_vars L))).
      assert (Eq' : forall b i, eqn b i = rsum w (fun c => rmul O (b i c) (z c))).
      { intros b i0; unfold eqn, w; rewrite (rsum_split F O RT); f_equal; apply rsum_ext; intros c Hc; f_equal; unfold z.
        - rewrite (proj2 (Nat.ltb_lt _ _) Hc); reflexivity.
        - rewrite (proj2 (Nat.ltb_ge (List.length (timed_vars L) + c) (List.length (timed_vars L))) ltac:(lia)); f_equal; lia. }
      rewrite Eq'.
      transitivity (rsum n (fun l => rmul O (Q i l) (eqn a l))).
      + rewrite (rsum_ext F O n (fun l => rmul O (Q i l) (eqn a l)) (fun l => rmul O (Q i l) (rsum w (fun c => rmul O (a l c) (z c))))) by (intros l _; rewrite Eq'; reflexivity).
        rewrite (triple0 F O RT n w Q a z i); apply rsum_ext; intros c Hc; rewrite (HQ i c Hi Hc); reflexivity.
      + apply (rsum_all_zero F O RT); intros l Hl; rewrite Res by exact Hl; ring.
  Qed.
End Main.
