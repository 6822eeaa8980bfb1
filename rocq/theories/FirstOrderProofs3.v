(** The code of the first-order solution, in terms of matrices. *)
From Verif Require Import Base Nd NdProofs Mat MatProofs SimSpec Indexing IndexingSpec IndexingProofs IndexingProofs2 SummaryProofs Moments MomentsProofs
  FirstOrder FirstOrderSpec FirstOrderProofs FirstOrderProofs2.

Section Code.
  Variable F : Type.
  Variable O : rops F.
  Variable RT : is_ring O.
  Let RT' : ring_theory (r0 O) (r1 O) (radd O) (rmul O) (rsub O) (ropp O) eq := RT.
  Add Ring FR3 : RT'.
  Variable ltb : F -> F -> bool.
  Variable qr : nat -> nat -> mat F -> res (mat F * mat F).
  Variable rank : nat -> nat -> mat F -> nat.
  Variable ordqz : nat -> mat F -> mat F -> res (schur F).
  Variable inv : nat -> mat F -> res (mat F).
  Variable solve : nat -> nat -> mat F -> mat F -> res (mat F).
  Local Notation rsum := (rsum F O).
  Local Notation mmul := (mmul F O).
  Local Notation mid := (mid F O).
  Local Notation mtr := (mtr F).
  Local Notation meq := (meq F).

  Variable L : list (list Z).
  Variable k : nat.
  Hypothesis all0 : forall i, i < List.length L -> at_k L i 0 = true.
  Let X := array L k.
  Let n := List.length L.
  Let w := List.length (timed_vars L) + k.
  Let ns := List.length (St L).
  Let npb := List.length (PB L).
  Let nm := List.length (MX L).
  Let npf := List.length (PF L).
  Let nb := npb + nm.
  Let nf := nm + npf.
  Let N := nb + nf.
  Let nd := npb + nf.
  Lemma size_n : n = ns + nd.
  Proof. unfold n, ns, nd, nf, npb, nm, npf; rewrite <- (sizes L k all0); lia. Qed.

  (** Columns of some variables at a period. *)
  Definition pick_cols (kk : Z) (M : list nat) (a : mat F) : mat F := fun i j => a i (nth j (map (column L k kk) M) 0).
  Lemma take_pick kk M r g : (forall v, In v M -> v < n /\ (-1 <= kk <= 1)%Z /\ at_k L v kk = true) ->
    take_cols F (map (column L k kk) M) (M2 r w g) = Ok (M2 r (List.length M) (pick_cols kk M g)).
  Proof.
    intros H; unfold take_cols.
    rewrite (proj2 (forallb_forall _ _)); [rewrite map_length; reflexivity|].
    intros c Hc; apply in_map_iff in Hc as (v & <- & Hv); destruct (H v Hv) as (A & B & C); apply Nat.ltb_lt.
    pose proof (column_bound L k kk v A B C); unfold w; lia.
  Qed.
  Lemma class_in c v : In v (members_of L c) -> v < n.
  Proof. apply member_bound. Qed.
  Ltac cls := unfold St, PB, MX, PF, members_of, static, pure_backward, mixed, pure_forward in *;
    match goal with H : In ?v _ |- _ => apply filter_In in H as [? H];
    repeat match goal with |- context [at_k L v ?z] => destruct (at_k L v z) | H : context [at_k L v ?z] |- _ => destruct (at_k L v z) end; cbn in *; congruence end.
  Ltac cols := let v := fresh in let H := fresh in intros v H; rewrite ?in_app_iff in H;
    repeat match type of H with _ \/ _ => destruct H as [H|H] end;
    (split; [eapply class_in; exact H|split; [lia|first [apply all0; eapply class_in; exact H|cls]]]).
  Lemma take_St r g : take_cols F (map (column L k 0) (St L)) (M2 r w g) = Ok (M2 r ns (pick_cols 0 (St L) g)).
  Proof. apply take_pick; cols. Qed.
  Lemma take_PB r g : take_cols F (map (column L k 0) (PB L)) (M2 r w g) = Ok (M2 r npb (pick_cols 0 (PB L) g)).
  Proof. apply take_pick; cols. Qed.
  Lemma take_PF r g : take_cols F (map (column L k 0) (PF L)) (M2 r w g) = Ok (M2 r npf (pick_cols 0 (PF L) g)).
  Proof. apply take_pick; cols. Qed.
  Lemma take_B0 r g : take_cols F (map (column L k 0) (PB L ++ MX L)) (M2 r w g) = Ok (M2 r nb (pick_cols 0 (PB L ++ MX L) g)).
  Proof. rewrite take_pick by cols; rewrite app_length; reflexivity. Qed.
  Lemma take_F0 r g : take_cols F (map (column L k 0) (MX L ++ PF L)) (M2 r w g) = Ok (M2 r nf (pick_cols 0 (MX L ++ PF L) g)).
  Proof. rewrite take_pick by cols; rewrite app_length; reflexivity. Qed.
  Lemma take_D0 r g : take_cols F (map (column L k 0) (PB L ++ MX L ++ PF L)) (M2 r w g) = Ok (M2 r nd (pick_cols 0 (PB L ++ MX L ++ PF L) g)).
  Proof. rewrite take_pick by cols; rewrite !app_length; reflexivity. Qed.
  Lemma take_Bm r g : take_cols F (map (column L k (-1)) (PB L ++ MX L)) (M2 r w g) = Ok (M2 r nb (pick_cols (-1) (PB L ++ MX L) g)).
  Proof. rewrite take_pick by cols; rewrite app_length; reflexivity. Qed.
  Lemma take_Fp r g : take_cols F (map (column L k 1) (MX L ++ PF L)) (M2 r w g) = Ok (M2 r nf (pick_cols 1 (MX L ++ PF L) g)).
  Proof. rewrite take_pick by cols; rewrite app_length; reflexivity. Qed.
  Lemma take_exo r g : take_cols F (exogenous_jacobian X) (M2 r w g) = Ok (M2 r k (fun i j => g i (nth j (seq (List.length (timed_vars L)) k) 0))).
  Proof.
    unfold exogenous_jacobian, X; rewrite timed_vars_length; cbn [n_exog array]; unfold take_cols.
    rewrite (proj2 (forallb_forall _ _)); [rewrite seq_length; reflexivity|].
    intros c Hc; apply in_seq in Hc; apply Nat.ltb_lt; unfold w; lia.
  Qed.

  (** The rotation. *)
  Lemma rotated_spec f A : qr_routine F O qr -> rotated F O qr rank X (M2 n w f) = Ok A ->
    exists a Q, A = M2 n w a /\ meq n w f (mmul n Q a) /\
      (forall i j, i < n -> j < ns -> ns <= i -> a i (nth j (map (column L k 0) (St L)) 0) = r0 O).
  Proof.
    intros HQ H; unfold rotated in H; unfold X in H; rewrite (dc_static L k all0) in H; cbn [bind] in H.
    destruct (map (column L k 0) (St L)) as [|c0 cs] eqn:E.
    - injection H as <-; exists f, mid; split; [reflexivity|]; split.
      + symmetry; apply (mmul_id_l F O RT).
      + intros i j _ Hj; apply map_eq_nil in E; unfold ns in Hj; rewrite E in Hj; cbn in Hj; lia.
    - rewrite <- E in *; clear c0 cs E; rewrite take_St in H; cbn [bind] in H.
      destruct (qr n ns (pick_cols 0 (St L) f)) as [[Q R]|] eqn:EQ; cbn [bind fst snd] in H; [|discriminate H].
      destruct (_ =? _); [|discriminate H]; unfold ndot, nmatmul in H; rewrite Nat.eqb_refl in H; injection H as <-.
      destruct (HQ n ns _ Q R EQ) as ((O1 & O2) & HR & HT).
      set (a := fun i j : nat => rsum n (fun l => rmul O (mtr Q i l) (f l j))); change (a) with (mmul n (mtr Q) f) in a.
      exists (mmul n (mtr Q) f), Q; split; [reflexivity|]; split.
      + assert (QQ : meq n n (mmul n Q (mtr Q)) mid) by (intros i j Hi Hj; apply (O2 i j Hi Hj)).
        rewrite <- (mmul_assoc F O RT n w n n Q (mtr Q) f), QQ, (mmul_id_l F O RT); reflexivity.
      + intros i j Hi Hj Hij.
        assert (QQ : meq n n (mmul n (mtr Q) Q) mid) by (intros a' b Ha Hb; apply (O1 a' b Ha Hb)).
        assert (J : meq n ns (pick_cols 0 (St L) f) (mmul n Q R)) by (intros a' b Ha Hb; symmetry; apply (HR a' b Ha Hb)).
        change (mmul n (mtr Q) (pick_cols 0 (St L) f) i j = r0 O).
        transitivity (mmul n (mtr Q) (mmul n Q R) i j).
        { apply (mmul_proper F O n n ns (mtr Q) (mtr Q) ltac:(intros ? ? _ _; reflexivity) _ _ J); assumption. }
        transitivity (R i j); [|apply HT; lia].
        assert (K : meq n ns (mmul n (mtr Q) (mmul n Q R)) R).
        { rewrite <- (mmul_assoc F O RT n ns n n (mtr Q) Q R), QQ, (mmul_id_l F O RT); reflexivity. }
        apply K; assumption.
  Qed.

  (** D and E. *)
  Section Rotated.
    Variable J : Nd.nd F.
    Variable a : mat F.
    Hypothesis HA : rotated F O qr rank X J = Ok (M2 n w a).
    Hypothesis Hnb : 0 < nb.
    Definition As_ := pick_cols 0 (St L) a.
    Definition A0d_ := pick_cols 0 (PB L ++ MX L ++ PF L) a.
    Definition Am_ := pick_cols (-1) (PB L ++ MX L) a.
    Definition Ap_ := pick_cols 1 (MX L ++ PF L) a.
    Definition Fu_ : mat F := fun i j => a i (nth j (seq (List.length (timed_vars L)) k) 0).
    Lemma n_static_here : n_static X = ns.
    Proof. apply (n_static_is L k all0); exact Hnb. Qed.
    Lemma n_dynamic_here : Z.to_nat (n_dynamic X) = nd.
    Proof. unfold n_dynamic; rewrite n_static_here; unfold X; rewrite n_endog_is; pose proof size_n; unfold n in *; lia. Qed.
    Lemma last_here : last_rows F nd (M2 n w a) = M2 nd w (fun i => a (ns + i)).
    Proof.
      unfold last_rows; destruct (Nat.eqb_spec nd 0) as [E|E]; [unfold nd, nf, nb in *; lia|].
      replace (n - nd) with ns by (rewrite size_n; lia); f_equal; rewrite size_n; lia.
    Qed.
    Lemma pb_col i j : j < npb -> pick_cols 0 (PB L) (fun i => a (ns + i)) i j = A0d_ (ns + i) j.
    Proof. intros Hj; unfold pick_cols, A0d_, pick_cols; rewrite map_app, app_nth1 by (rewrite map_length; exact Hj); reflexivity. Qed.
    Lemma fw_col i j : pick_cols 0 (MX L ++ PF L) (fun i => a (ns + i)) i j = A0d_ (ns + i) (npb + j).
    Proof.
      unfold pick_cols, A0d_, pick_cols; rewrite (map_app (column L k 0) (PB L)), app_nth2 by (rewrite map_length; unfold npb; lia).
      rewrite map_length; do 2 f_equal; unfold npb; lia.
    Qed.

    Lemma structural_good : 0 < npb \/ nm = 1 ->
      exists d e, structural F O qr rank X J = Ok (M2 N N d, M2 N N e, M2 n w a) /\
        (forall i j, i < nd -> j < nb -> d i j = if j <? npb then A0d_ (ns + i) j else r0 O) /\
        (forall i j, i < nd -> j < nf -> d i (nb + j) = Ap_ (ns + i) j) /\
        (forall i j, i < nm -> j < nb -> d (nd + i) j = if j =? npb + i then r1 O else r0 O) /\
        (forall i j, i < nm -> j < nf -> d (nd + i) (nb + j) = r0 O) /\
        (forall i j, i < nd -> j < nb -> e i j = ropp O (Am_ (ns + i) j)) /\
        (forall i j, i < nd -> j < nf -> e i (nb + j) = ropp O (A0d_ (ns + i) (npb + j))) /\
        (forall i j, i < nm -> j < nb -> e (nd + i) j = r0 O) /\
        (forall i j, i < nm -> j < nf -> e (nd + i) (nb + j) = if j =? i then r1 O else r0 O).
    Proof.
      intros Good; unfold structural; rewrite HA; cbn [bind]; rewrite n_dynamic_here, last_here.
      unfold X; rewrite (dr_forward L k all0 1) by auto; cbn [bind]; rewrite take_Fp; cbn [bind].
      rewrite (dr_backward L k all0 (-1)) by auto; cbn [bind]; rewrite take_Bm; cbn [bind].
      rewrite (dr_forward L k all0 0) by auto; cbn [bind]; rewrite take_F0; cbn [bind].
      rewrite (dr_pure_backward L k all0); cbn [bind]; rewrite take_PB; cbn [bind].
      cbn [nsize]; rewrite (n_mixed_is L k), (n_backward_is L k all0), (n_forward_is L k all0); fold X; rewrite n_static_here; unfold X; rewrite n_endog_is.
      fold n ns npb nm npf; fold nb nf.
      pose proof size_n as Sn; assert (Hnd : 0 < nd) by (unfold nd, nf, nb in *; lia).
      destruct (Nat.ltb_spec 0 nm) as [Hm|Hm].
      - destruct (Nat.eq_dec npb 0) as [Z0|Z0].
        + (* one mixed variable *)
          assert (M1 : nm = 1) by lia.
          rewrite (proj2 (Nat.eqb_eq (nd * npb) 0)) by (rewrite Z0; lia).
          rewrite (proj2 (Z.eqb_eq (Z.of_nat n - (Z.of_nat nf + Z.of_nat ns)) 0)) by (rewrite Sn; unfold nd; lia).
          cbn [bind fst snd].
          unfold block, hstack, zeros, eye, nneg, nmap; rewrite !Nat.eqb_refl; cbn [bind]; unfold vstack.
          replace (1 + nf) with N by (unfold N, nb; lia); fold N; rewrite !Nat.eqb_refl; cbn [bind].
          replace (nd + nm) with N by (unfold N, nd, nb, nf; lia).
          eexists _, _; split; [reflexivity|].
          assert (N1 : nb = 1) by (unfold nb; lia).
          repeat split.
          * intros i j Hi Hj; unfold vcat, hcat; rewrite (proj2 (Nat.ltb_lt i nd) Hi), (proj2 (Nat.ltb_lt j 1) ltac:(lia)), (proj2 (Nat.ltb_ge j npb) ltac:(lia)); reflexivity.
          * intros i j Hi Hj; unfold vcat, hcat; rewrite (proj2 (Nat.ltb_lt i nd) Hi), (proj2 (Nat.ltb_ge (nb + j) 1) ltac:(lia)).
            replace (nb + j - 1) with j by lia; reflexivity.
          * intros i j Hi Hj; unfold vcat, hcat; rewrite (proj2 (Nat.ltb_ge (nd + i) nd) ltac:(lia)), (proj2 (Nat.ltb_lt j nb) Hj).
            replace (nd + i - nd) with i by lia; destruct (Z.eqb_spec (Z.of_nat j - Z.of_nat i) 0), (Nat.eqb_spec j (npb + i)); auto; lia.
          * intros i j Hi Hj; unfold vcat, hcat; rewrite (proj2 (Nat.ltb_ge (nd + i) nd) ltac:(lia)), (proj2 (Nat.ltb_ge (nb + j) nb) ltac:(lia)); reflexivity.
          * intros i j Hi Hj; unfold vcat, hcat; rewrite (proj2 (Nat.ltb_lt i nd) Hi), (proj2 (Nat.ltb_lt j nb) Hj); reflexivity.
          * intros i j Hi Hj; unfold vcat, hcat; rewrite (proj2 (Nat.ltb_lt i nd) Hi), (proj2 (Nat.ltb_ge (nb + j) nb) ltac:(lia)).
            replace (nb + j - nb) with j by lia; f_equal; apply fw_col.
          * intros i j Hi Hj; unfold vcat, hcat; rewrite (proj2 (Nat.ltb_ge (nd + i) nd) ltac:(lia)), (proj2 (Nat.ltb_lt j nb) Hj); reflexivity.
          * intros i j Hi Hj; unfold vcat, hcat; rewrite (proj2 (Nat.ltb_ge (nd + i) nd) ltac:(lia)), (proj2 (Nat.ltb_ge (nb + j) nb) ltac:(lia)).
            replace (nb + j - nb) with j by lia; replace (nd + i - nd) with i by lia.
            destruct (Z.eqb_spec (Z.of_nat j - Z.of_nat i) 0), (Nat.eqb_spec j i); auto; lia.
        + (* pure backward and mixed variables *)
          rewrite (proj2 (Nat.eqb_neq (nd * npb) 0)) by (intros E; apply Nat.eq_mul_0 in E; lia).
          rewrite (proj2 (Z.eqb_neq (Z.of_nat n - (Z.of_nat nf + Z.of_nat ns)) 0)) by (rewrite Sn; unfold nd; lia).
          unfold zeros at 1; unfold hstack at 1; rewrite Nat.eqb_refl; cbn [bind fst snd].
          unfold block, hstack, zeros, eye, nneg, nmap; rewrite !Nat.eqb_refl; cbn [bind]; unfold vstack.
          fold nb; fold N; rewrite !Nat.eqb_refl; cbn [bind].
          replace (nd + nm) with N by (unfold N, nd, nb, nf; lia).
          eexists _, _; split; [reflexivity|].
          repeat split.
          * intros i j Hi Hj; unfold vcat, hcat; rewrite (proj2 (Nat.ltb_lt i nd) Hi), (proj2 (Nat.ltb_lt j nb) Hj).
            destruct (Nat.ltb_spec j npb) as [Lj|Lj]; [apply pb_col; exact Lj|reflexivity].
          * intros i j Hi Hj; unfold vcat, hcat; rewrite (proj2 (Nat.ltb_lt i nd) Hi), (proj2 (Nat.ltb_ge (nb + j) nb) ltac:(lia)).
            replace (nb + j - nb) with j by lia; reflexivity.
          * intros i j Hi Hj; unfold vcat, hcat; rewrite (proj2 (Nat.ltb_ge (nd + i) nd) ltac:(lia)), (proj2 (Nat.ltb_lt j nb) Hj).
            replace (nd + i - nd) with i by lia.
            assert (ND : (Z.of_nat n - (Z.of_nat nf + Z.of_nat ns) = Z.of_nat npb)%Z) by (rewrite Sn; unfold nd; lia); rewrite ND.
            destruct (Z.eqb_spec (Z.of_nat j - Z.of_nat i) (Z.of_nat npb)), (Nat.eqb_spec j (npb + i)); auto; lia.
          * intros i j Hi Hj; unfold vcat, hcat; rewrite (proj2 (Nat.ltb_ge (nd + i) nd) ltac:(lia)), (proj2 (Nat.ltb_ge (nb + j) nb) ltac:(lia)); reflexivity.
          * intros i j Hi Hj; unfold vcat, hcat; rewrite (proj2 (Nat.ltb_lt i nd) Hi), (proj2 (Nat.ltb_lt j nb) Hj); reflexivity.
          * intros i j Hi Hj; unfold vcat, hcat; rewrite (proj2 (Nat.ltb_lt i nd) Hi), (proj2 (Nat.ltb_ge (nb + j) nb) ltac:(lia)).
            replace (nb + j - nb) with j by lia; f_equal; apply fw_col.
          * intros i j Hi Hj; unfold vcat, hcat; rewrite (proj2 (Nat.ltb_ge (nd + i) nd) ltac:(lia)), (proj2 (Nat.ltb_lt j nb) Hj); reflexivity.
          * intros i j Hi Hj; unfold vcat, hcat; rewrite (proj2 (Nat.ltb_ge (nd + i) nd) ltac:(lia)), (proj2 (Nat.ltb_ge (nb + j) nb) ltac:(lia)).
            replace (nb + j - nb) with j by lia; replace (nd + i - nd) with i by lia.
            destruct (Z.eqb_spec (Z.of_nat j - Z.of_nat i) 0), (Nat.eqb_spec j i); auto; lia.
      - (* no mixed variable *)
        assert (M0 : nm = 0) by lia; assert (P1 : 0 < npb) by (unfold nb in Hnb; lia).
        rewrite (proj2 (Nat.eqb_neq (nd * npb) 0)) by (intros E; apply Nat.eq_mul_0 in E; lia).
        unfold hstack; rewrite !Nat.eqb_refl; cbn [bind nneg nmap].
        replace (npb + nf) with N by (unfold N, nb; lia); fold N.
        assert (NN : nd = N) by (unfold N, nd, nb, nf; lia).
        eexists _, _; split; [rewrite NN; reflexivity|].
        assert (NB : nb = npb) by (unfold nb; lia).
        repeat split; try (intros; lia).
        + intros i j Hi Hj; unfold hcat; rewrite <- NB, (proj2 (Nat.ltb_lt j nb) Hj); apply pb_col; lia.
        + intros i j Hi Hj; unfold hcat; rewrite <- NB, (proj2 (Nat.ltb_ge (nb + j) nb) ltac:(lia)); replace (nb + j - nb) with j by lia; reflexivity.
        + intros i j Hi Hj; unfold hcat; rewrite (proj2 (Nat.ltb_lt j nb) Hj); reflexivity.
        + intros i j Hi Hj; unfold hcat; rewrite (proj2 (Nat.ltb_ge (nb + j) nb) ltac:(lia)); replace (nb + j - nb) with j by lia; f_equal; apply fw_col.
    Qed.

    Lemma structural_bad : npb = 0 -> nm <> 1 -> structural F O qr rank X J = Err ValueErr.
    Proof.
      intros Z0 M1; unfold structural; rewrite HA; cbn [bind]; rewrite n_dynamic_here, last_here.
      unfold X; rewrite (dr_forward L k all0 1) by auto; cbn [bind]; rewrite take_Fp; cbn [bind].
      rewrite (dr_backward L k all0 (-1)) by auto; cbn [bind]; rewrite take_Bm; cbn [bind].
      rewrite (dr_forward L k all0 0) by auto; cbn [bind]; rewrite take_F0; cbn [bind].
      rewrite (dr_pure_backward L k all0); cbn [bind]; rewrite take_PB; cbn [bind].
      cbn [nsize]; rewrite (n_mixed_is L k), (n_backward_is L k all0), (n_forward_is L k all0); fold X; rewrite n_static_here; unfold X; rewrite n_endog_is.
      fold n ns npb nm npf; fold nb nf.
      pose proof size_n as Sn; assert (Hm : 0 < nm) by (unfold nb in *; lia).
      rewrite (proj2 (Nat.ltb_lt 0 nm) Hm).
      rewrite (proj2 (Nat.eqb_eq (nd * npb) 0)) by (rewrite Z0; lia).
      rewrite (proj2 (Z.eqb_eq (Z.of_nat n - (Z.of_nat nf + Z.of_nat ns)) 0)) by (rewrite Sn; unfold nd; lia).
      cbn [bind fst snd].
      unfold block, hstack, zeros, eye; rewrite !Nat.eqb_refl; cbn [bind]; unfold vstack.
      rewrite (proj2 (Nat.eqb_neq (1 + nf) (nb + nf))) by (unfold nb; lia); reflexivity.
    Qed.

    (** The state space made of a factorisation that is cut at [m]. *)
    Definition state_of (d e : mat F) (q : schur F) (m : nat) : state F :=
      let Z := mtr (q_Z q) in
      State (M2 n w a) (M2 N N d) (M2 N N e) (q_eig q)
        (M2 m m Z) (M2 m (N - m) (sub F 0 m Z)) (M2 (N - m) m (sub F m 0 Z)) (M2 (N - m) (N - m) (sub F m m Z)) (M2 m m (q_T q)) (M2 m m (q_S q)).
    Lemma state_space_eq d e : structural F O qr rank X J = Ok (M2 N N d, M2 N N e, M2 n w a) ->
      state_space F O ltb qr rank ordqz X J =
      (do q <- ordqz N e d; do kk <- find_first (map (above F O ltb) (q_eig q)); Ok (state_of d e q (cut N kk))).
    Proof.
      intros E; unfold state_space; rewrite E; cbn [bind fst snd]; unfold partitioned_qz; rewrite !Nat.eqb_refl; reflexivity.
    Qed.

    Lemma ndot_M r c c' f g : ndot F O (M2 r c f) (M2 c c' g) = Ok (M2 r c' (mmul c f g)).
    Proof. cbn; rewrite Nat.eqb_refl; reflexivity. Qed.
    Lemma ndot_bad r c r' c' f g : c <> r' -> ndot F O (M2 r c f) (M2 r' c' g) = Err ValueErr.
    Proof. intros H; cbn; rewrite (proj2 (Nat.eqb_neq c r') H); reflexivity. Qed.
    Lemma shingle_here gm gp : exists h, array_shingle F (M2 nb nb gm) (M2 nf nb gp) (Z.of_nat nm) = Ok (M2 nd nb h) /\
      meq nd nb h (gyd_of F npb nm gm gp).
    Proof.
      unfold array_shingle; rewrite Nat.eqb_refl; cbn [negb].
      rewrite (proj2 (Z.ltb_ge _ 0)) by (unfold nf, nb; lia).
      replace (Z.to_nat (Z.of_nat nb + Z.of_nat nf - Z.of_nat nm)) with nd by (unfold nd, nf, nb; lia).
      rewrite (proj2 (Z.ltb_ge (Z.of_nat nm) 0)) by lia.
      replace (Z.to_nat (Z.min (Z.of_nat nm) (Z.of_nat nf))) with nm by (unfold nf; lia).
      replace (Nat.min nb nd) with nb by (unfold nd, nf, nb; lia).
      rewrite Nat.eqb_refl; cbn [orb negb].
      replace (nf - nm) with (nd - nb) by (unfold nd, nf, nb; lia); rewrite Nat.eqb_refl; cbn [orb negb].
      eexists; split; [reflexivity|]; intros i j Hi Hj; unfold gyd_of; fold nb.
      destruct (Nat.ltb_spec i nb) as [H|H]; [rewrite at_lt by exact H; reflexivity|].
      rewrite at_lt by lia; f_equal; unfold nb in *; lia.
    Qed.

    (** A cut elsewhere makes arrays that do not fit. *)
    Lemma solve_misfit d e q m r : m <= N -> m <> nb -> solve_first_order F O inv solve X (state_of d e q m) <> Ok r.
    Proof.
      intros Hm Hne H; unfold solve_first_order in H.
      unfold solve_nonstatic, state_of in H; cbn [Z11 Z12 Z21 Z22 T11 S11 jac nsolve ninv ntrans] in H.
      rewrite !Nat.eqb_refl in H; cbn [negb] in H.
      destruct (solve (N - m) m _ _) as [p|]; cbn [bind] in H; [|discriminate H].
      destruct (inv m (q_T q)) as [it|]; cbn [bind] in H; [|discriminate H]; rewrite ndot_M in H; cbn [bind] in H.
      destruct (inv m _) as [iz|] in H; cbn [bind] in H; [|discriminate H]; rewrite !ndot_M in H; cbn [bind] in H; rewrite !ndot_M in H; cbn [bind fst snd nneg nmap] in H.
      destruct (array_shingle _ _ _ _) as [gyd|] in H; cbn [bind] in H; [|discriminate H].
      unfold solve_static in H; cbn [first_rows] in H; unfold X in H.
      rewrite (dr_forward L k all0 1) in H by auto; cbn [bind] in H; rewrite take_Fp in H; cbn [bind] in H.
      rewrite (dr_backward L k all0 (-1)) in H by auto; cbn [bind] in H; rewrite take_Bm in H; cbn [bind] in H.
      rewrite (dr_static L k all0) in H; cbn [bind] in H; rewrite take_St in H; cbn [bind] in H.
      rewrite (dr_dynamic L k all0) in H; cbn [bind] in H; rewrite take_D0 in H; cbn [bind] in H.
      destruct (array_shingle _ _ _ _) as [gyd'|] in H; cbn [bind] in H; [|discriminate H].
      rewrite ndot_bad in H by (unfold N in *; lia); discriminate H.
    Qed.

    (** At the right place: what is computed, or which routine failed. *)
    Definition routine_failed (er : exn) : Prop := (exists j A, inv j A = Err er) \/ (exists j l A B, solve j l A B = Err er).
    Lemma solve_cases d e q : let s := state_of d e q nb in let Z := mtr (q_Z q) in
      (exists p it iz iA,
         solve nf nb (sub F nb nb Z) (sub F nb 0 Z) = Ok p /\ inv nb (q_T q) = Ok it /\ inv nb (mtr Z) = Ok iz /\ inv ns As_ = Ok iA /\
         let gm := mmul nb (mmul nb (mtr Z) it) (mmul nb (q_S q) iz) in
         let gp := fun i j => ropp O (p i j) in
         (k = 0 /\ solve_first_order F O inv solve X s = Err NameErr) \/
         (0 < k /\ exists U gy, meq n n U (U_of F O ns npb nm npf As_ A0d_ Ap_ gp) /\
            meq n nb gy (gy_of F O ns npb nm npf A0d_ Am_ Ap_ gm gp iA) /\
            ((exists g, solve n k U Fu_ = Ok g /\ solve_first_order F O inv solve X s = Ok (squeeze F (M2 n nb gy), squeeze F (M2 n k (fun i j => ropp O (g i j))))) \/
             (exists er, solve n k U Fu_ = Err er /\ solve_first_order F O inv solve X s = Err er)))) \/
      (exists er, routine_failed er /\ solve_first_order F O inv solve X s = Err er).
    Proof.
      cbn zeta; unfold solve_first_order.
      unfold solve_nonstatic, state_of; cbn [Z11 Z12 Z21 Z22 T11 S11 jac nsolve ninv ntrans].
      replace (N - nb) with nf by (unfold N; lia).
      rewrite !Nat.eqb_refl; cbn [negb]; change (fun i j : nat => mtr (q_Z q) j i) with (mtr (mtr (q_Z q))).
      destruct (solve nf nb _ _) as [p|er] eqn:Ep; cbn [bind]; [|right; exists er; split; [right; eauto|reflexivity]].
      destruct (inv nb (q_T q)) as [it|er] eqn:Et; cbn [bind]; [|right; exists er; split; [left; eauto|reflexivity]].
      rewrite ndot_M; cbn [bind].
      destruct (inv nb (mtr (mtr (q_Z q)))) as [iz|er] eqn:Ez; cbn [bind]; [|right; exists er; split; [left; eauto|reflexivity]].
      rewrite !ndot_M; cbn [bind]; rewrite !ndot_M; cbn [bind fst snd nneg nmap].
      set (gm := mmul nb (mmul nb (mtr (mtr (q_Z q))) it) (mmul nb (q_S q) iz)).
      set (gp := fun i j => ropp O (p i j)).
      unfold X; rewrite (n_mixed_is L k); fold nm.
      destruct (shingle_here gm gp) as (h & Eh & Hh); rewrite Eh; cbn [bind].
      unfold solve_static; fold X; rewrite n_static_here; cbn [first_rows].
      replace (Nat.min ns n) with ns by (rewrite size_n; lia).
      unfold X; rewrite (dr_forward L k all0 1) by auto; cbn [bind]; rewrite take_Fp; cbn [bind].
      rewrite (dr_backward L k all0 (-1)) by auto; cbn [bind]; rewrite take_Bm; cbn [bind].
      rewrite (dr_static L k all0); cbn [bind]; rewrite take_St; cbn [bind].
      rewrite (dr_dynamic L k all0); cbn [bind]; rewrite take_D0; cbn [bind].
      rewrite (n_mixed_is L k); fold nm; rewrite Eh; cbn [bind].
      repeat (rewrite ndot_M; cbn [bind]).
      unfold ninv; rewrite Nat.eqb_refl; fold As_.
      destruct (inv ns As_) as [iA|er] eqn:EA; cbn [bind]; [|right; exists er; split; [left; eauto|reflexivity]].
      fold A0d_ Am_ Ap_.
      destruct (isM_add F O ns nb _ _ _ _ (isM_refl F ns nb (mmul nb (mmul nf Ap_ gp) gm)) (isM_refl F ns nb (mmul nd A0d_ h))) as (b & Eb & Hb).
      rewrite Eb; cbn [bind].
      destruct (isM_add F O ns nb _ _ _ _ Hb (isM_refl F ns nb Am_)) as (c & Ec & (c' & -> & Hc)); rewrite Ec; cbn [bind].
      rewrite ndot_M; cbn [bind nneg nmap].
      assert (Evs : forall f g, vstack F (M2 ns nb f) (M2 nd nb g) = Ok (M2 n nb (vcat F ns f g))).
      { intros f g; unfold vstack; rewrite Nat.eqb_refl, size_n; reflexivity. }
      rewrite Evs; cbn [bind].
      left; exists p, it, iz, iA; split; [reflexivity|]; split; [reflexivity|]; split; [reflexivity|]; split; [reflexivity|].
      change (n_exog (array L k)) with k.
      destruct (Nat.ltb_spec 0 k) as [Hk|Hk]; [right; split; [exact Hk|]|left; split; [lia|reflexivity]].
      fold X; rewrite take_exo; cbn [bind]; fold Fu_.
      unfold solve_exo, X; rewrite (dr_static L k all0); cbn [bind]; rewrite take_St; cbn [bind].
      rewrite (dr_backward L k all0 0) by auto; cbn [bind]; rewrite take_B0; cbn [bind].
      rewrite (dr_pure_forward L k all0); cbn [bind]; rewrite take_PF; cbn [bind].
      rewrite (dr_forward L k all0 1) by auto; cbn [bind]; rewrite take_Fp; cbn [bind].
      rewrite !ndot_M; cbn [bind]; fold Ap_ As_.
      destruct (isM_add F O n nb _ _ _ _ (isM_refl F n nb (mmul nf Ap_ gp)) (isM_refl F n nb (pick_cols 0 (PB L ++ MX L) a))) as (ib & Eib & (ib' & -> & Hib)).
      rewrite Eib; cbn [bind]; unfold hstack; rewrite !Nat.eqb_refl; cbn [bind]; rewrite !Nat.eqb_refl; cbn [bind].
      replace (ns + nb + npf) with n by (rewrite size_n; unfold nd, nb, nf; lia).
      unfold nsolve; rewrite !Nat.eqb_refl; cbn [negb].
      eexists (hcat F (ns + nb) (hcat F ns As_ ib') (pick_cols 0 (PF L) a)), _; split; [|split]; cycle 2.
      - destruct (solve n k _ Fu_) as [g|er] eqn:Eg; cbn [bind nneg nmap]; [left; exists g; split; [reflexivity|reflexivity]|right; exists er; split; reflexivity].
      - intros i j Hi Hj; unfold U_of; fold nb nf; unfold hcat.
        destruct (Nat.ltb_spec j (ns + nb)) as [H1|H1]; [destruct (Nat.ltb_spec j ns) as [H2|H2]; [reflexivity|]|].
        + rewrite Hib by lia; unfold madd; f_equal.
          unfold A0d_, pick_cols; rewrite app_assoc, (map_app (column L k 0) (PB L ++ MX L)), (app_nth1 (map _ (PB L ++ MX L))); [reflexivity|].
          rewrite map_length, app_length; fold npb nm; fold nb; lia.
        + unfold A0d_, pick_cols; rewrite app_assoc, (map_app (column L k 0) (PB L ++ MX L)), (app_nth2 (map _ (PB L ++ MX L))); rewrite map_length, app_length; fold npb nm; fold nb; [|lia].
          do 2 f_equal; lia.
      - intros i j Hi Hj; unfold gy_of, vcat; destruct (Nat.ltb_spec i ns) as [H1|H1].
        + unfold gys_of; f_equal; unfold Mat.mmul at 1 2; apply rsum_ext; intros l Hl; f_equal; rewrite Hc by assumption.
          unfold rest_of; fold nb nf nd; unfold madd; f_equal; f_equal.
          unfold Mat.mmul; apply rsum_ext; intros l' Hl'; f_equal; apply Hh; assumption.
        + apply Hh; [rewrite size_n in Hi; lia|exact Hj].
    Qed.
  End Rotated.
End Code.
