(** The algebra of the first-order solution. *)
From Verif Require Import Base Nd NdProofs Mat MatProofs SimSpec.
From Coq Require Import Setoid Morphisms.

Section Core.
  Variable F : Type.
  Variable O : rops F.
  Variable RT : is_ring O.
  Let RT' : ring_theory (r0 O) (r1 O) (radd O) (rmul O) (rsub O) (ropp O) eq := RT.
  Add Ring FR : RT'.
  Local Notation rsum := (rsum F O).
  Local Notation mmul := (mmul F O).
  Local Notation mid := (mid F O).
  Local Notation mtr := (mtr F).
  Local Notation meq := (meq F).
  Local Notation vcat := (vcat F).

  (** Two blocks of rows. *)
  Lemma mmul_vcat a b (p : mat F) u v i j : mmul (a + b) p (vcat a u v) i j = radd O (mmul a p u i j) (mmul b (fun i l => p i (a + l)%nat) v i j).
  Proof.
    unfold Mat.mmul; rewrite (rsum_split F O RT); f_equal; apply rsum_ext; intros l Hl; unfold Mat.vcat.
    - rewrite (proj2 (Nat.ltb_lt l a) Hl); reflexivity.
    - rewrite (proj2 (Nat.ltb_ge (a + l) a) ltac:(lia)); do 2 f_equal; lia.
  Qed.
  Lemma mmul_split a b (p q : mat F) i j : mmul (a + b) p q i j = radd O (mmul a p q i j) (mmul b (fun i l => p i (a + l)%nat) (fun l j => q (a + l)%nat j) i j).
  Proof. unfold Mat.mmul; rewrite (rsum_split F O RT); reflexivity. Qed.
  Lemma mmul_zero_tail a b (p q : mat F) i j : (forall l, l < b -> q (a + l) j = r0 O) -> mmul (a + b) p q i j = mmul a p q i j.
  Proof.
    intros H; rewrite mmul_split; unfold Mat.mmul at 2; rewrite (rsum_all_zero F O RT); [ring|].
    intros l Hl; rewrite H by exact Hl; ring.
  Qed.

  Section QZ.
    Variables nb nf : nat.
    Let N := nb + nf.
    Variables D E Q T S Z gyp iT iW : mat F.
    Hypothesis HD : meq N N D (mmul N Q (mmul N T Z)).
    Hypothesis HE : meq N N E (mmul N Q (mmul N S Z)).
    Hypothesis HZ : meq N N (mmul N (mtr Z) Z) mid.
    Hypothesis HT : forall i j, nb <= i < N -> j < nb -> T i j = r0 O.
    Hypothesis HS : forall i j, nb <= i < N -> j < nb -> S i j = r0 O.
    Hypothesis Hp : forall i j, i < nf -> j < nb -> rsum nf (fun l => rmul O (Z (nb + i) (nb + l)) (gyp l j)) = ropp O (Z (nb + i) j).
    Hypothesis HiT : meq nb nb (mmul nb T iT) mid.
    Let W := mtr Z.
    Hypothesis HiW : meq nb nb (mmul nb W iW) mid.
    Hypothesis HWi : meq nb nb (mmul nb iW W) mid.
    Definition gym_of := mmul nb (mmul nb W iT) (mmul nb S iW).
    Definition x_of := vcat nb mid gyp.
    Let gym := gym_of.
    Let x := x_of.
    Let Zx := mmul N Z x.

    Lemma Zx_low i j : nb <= i < N -> j < nb -> Zx i j = r0 O.
    Proof.
      intros Hi Hj; unfold Zx, x, x_of, N; rewrite mmul_vcat.
      rewrite (mmul_id_r F O RT (Datatypes.S i) nb Z i j) by lia.
      replace i with (nb + (i - nb)) at 2 by lia; unfold Mat.mmul; rewrite Hp by (unfold N in *; lia).
      replace (nb + (i - nb)) with i by lia; ring.
    Qed.
    Lemma WZx : meq nb nb (mmul nb W Zx) mid.
    Proof.
      intros i j Hi Hj; rewrite <- (mmul_zero_tail nb nf W Zx i j) by (intros l Hl; apply Zx_low; unfold N; lia).
      fold N; unfold Zx; rewrite <- (mmul_assoc_entry F O RT N N W Z x i j).
      assert (E1 : mmul N (mmul N W Z) x i j = mmul N mid x i j).
      { apply (mmul_proper F O N N nb (mmul N W Z) mid HZ x x ltac:(intros ? ? _ _; reflexivity)); unfold N; lia. }
      rewrite E1, (mmul_id_l F O RT N nb x i j) by (unfold N; lia).
      unfold x, x_of, Mat.vcat; rewrite (proj2 (Nat.ltb_lt i nb) Hi); reflexivity.
    Qed.
    Lemma Zx_top : meq nb nb Zx iW.
    Proof.
      rewrite <- (mmul_id_l F O RT nb nb Zx), <- HWi, (mmul_assoc F O RT nb nb nb nb iW W Zx), WZx.
      apply (mmul_id_r F O RT).
    Qed.
    Lemma top_equation : meq nb nb (mmul nb T (mmul nb Zx gym)) (mmul nb S Zx).
    Proof.
      rewrite Zx_top; unfold gym, gym_of.
      rewrite <- (mmul_assoc F O RT nb nb nb nb iW (mmul nb W iT) (mmul nb S iW)).
      rewrite <- (mmul_assoc F O RT nb nb nb nb iW W iT), HWi, (mmul_id_l F O RT).
      rewrite <- (mmul_assoc F O RT nb nb nb nb T iT (mmul nb S iW)), HiT, (mmul_id_l F O RT); reflexivity.
    Qed.
    Lemma tri (U : mat F) : (forall i j, nb <= i < N -> j < nb -> U i j = r0 O) -> forall V, (forall i j, nb <= i < N -> j < nb -> V i j = r0 O) ->
      forall i j, i < N -> j < nb -> mmul N U V i j = if i <? nb then mmul nb U V i j else r0 O.
    Proof.
      intros HU V HV i j Hi Hj; unfold N; rewrite mmul_zero_tail by (intros l Hl; apply HV; unfold N; lia).
      destruct (Nat.ltb_spec i nb) as [L|L]; [reflexivity|]; unfold Mat.mmul; apply (rsum_all_zero F O RT).
      intros l Hl; rewrite HU by lia; ring.
    Qed.
    Lemma qz_core : meq N nb (mmul nb (mmul N D x) gym) (mmul N E x).
    Proof.
      rewrite HD, HE, (mmul_assoc F O RT N nb N N Q (mmul N T Z) x), (mmul_assoc F O RT N nb N nb Q _ gym).
      rewrite (mmul_assoc F O RT N nb N N Q (mmul N S Z) x).
      assert (K : meq N nb (mmul nb (mmul N (mmul N T Z) x) gym) (mmul N (mmul N S Z) x)).
      { rewrite (mmul_assoc F O RT N nb N N T Z x), (mmul_assoc F O RT N nb N N S Z x), (mmul_assoc F O RT N nb N nb T (mmul N Z x) gym).
        fold Zx; intros i j Hi Hj.
        assert (G : forall a b, nb <= a < N -> b < nb -> mmul nb Zx gym a b = r0 O).
        { intros a b Ha Hb; unfold Mat.mmul; apply (rsum_all_zero F O RT); intros l Hl; rewrite Zx_low by assumption; ring. }
        rewrite (tri T HT _ G i j Hi Hj), (tri S HS _ Zx_low i j Hi Hj).
        destruct (Nat.ltb_spec i nb) as [L|L]; [|reflexivity]; apply top_equation; assumption. }
      rewrite K; reflexivity.
    Qed.
  End QZ.

  Section Model.
    Variables ns npb nm npf k : nat.
    Let nb := npb + nm.
    Let nf := nm + npf.
    Let N := nb + nf.
    Let nd := npb + nf.
    Let n := ns + nd.
    Variables As A0d Am Ap Fu : mat F.
    Hypothesis Hs0 : forall i j, i < nd -> j < ns -> As (ns + i) j = r0 O.
    Variables D E gym gyp iA gu : mat F.
    Hypothesis HD1 : forall i j, i < nd -> j < nb -> D i j = if j <? npb then A0d (ns + i) j else r0 O.
    Hypothesis HD2 : forall i j, i < nd -> j < nf -> D i (nb + j) = Ap (ns + i) j.
    Hypothesis HD3 : forall i j, i < nm -> j < nb -> D (nd + i) j = if j =? npb + i then r1 O else r0 O.
    Hypothesis HD4 : forall i j, i < nm -> j < nf -> D (nd + i) (nb + j) = r0 O.
    Hypothesis HE1 : forall i j, i < nd -> j < nb -> E i j = ropp O (Am (ns + i) j).
    Hypothesis HE2 : forall i j, i < nd -> j < nf -> E i (nb + j) = ropp O (A0d (ns + i) (npb + j)).
    Hypothesis HE3 : forall i j, i < nm -> j < nb -> E (nd + i) j = r0 O.
    Hypothesis HE4 : forall i j, i < nm -> j < nf -> E (nd + i) (nb + j) = if j =? i then r1 O else r0 O.
    Hypothesis HC : meq N nb (mmul nb (mmul N D (x_of nb gyp)) gym) (mmul N E (x_of nb gyp)).

    Lemma mixed_rows i j : i < nm -> j < nb -> gym (npb + i) j = gyp i j.
    Proof.
      intros Hi Hj; specialize (HC (nd + i) j ltac:(unfold N, nd, nb, nf; lia) Hj).
      assert (EL : mmul nb (mmul N D (x_of nb gyp)) gym (nd + i) j = gym (npb + i) j).
      { unfold Mat.mmul at 1; rewrite (rsum_single F O RT nb (npb + i)).
        - unfold N, x_of; rewrite mmul_vcat, (mmul_id_r F O RT (Datatypes.S (nd + i)) nb D) by (unfold nb; lia).
          rewrite HD3, Nat.eqb_refl by (unfold nb; lia).
          unfold Mat.mmul; rewrite (rsum_all_zero F O RT) by (intros m Hm; rewrite HD4 by lia; ring); ring.
        - unfold nb; lia.
        - intros l Hl Ne; unfold N, x_of; rewrite mmul_vcat, (mmul_id_r F O RT (Datatypes.S (nd + i)) nb D) by lia.
          rewrite HD3 by lia; destruct (Nat.eqb_spec l (npb + i)); [congruence|].
          unfold Mat.mmul; rewrite (rsum_all_zero F O RT) by (intros m Hm; rewrite HD4 by lia; ring); ring. }
      assert (ER : mmul N E (x_of nb gyp) (nd + i) j = gyp i j).
      { unfold N, x_of; rewrite mmul_vcat, (mmul_id_r F O RT (Datatypes.S (nd + i)) nb E) by lia; rewrite HE3 by lia.
        unfold Mat.mmul; rewrite (rsum_single F O RT nf i).
        - rewrite HE4, Nat.eqb_refl by (unfold nf; lia); ring.
        - unfold nf; lia.
        - intros l Hl Ne; rewrite HE4 by lia; destruct (Nat.eqb_spec l i); [congruence|ring]. }
      congruence.
    Qed.
    Definition gyd_of : mat F := fun i j => if i <? nb then gym i j else gyp (i - npb) j.
    Let gyd := gyd_of.
    Lemma gyd_forward i j : i < nf -> j < nb -> gyd (npb + i) j = gyp i j.
    Proof.
      intros Hi Hj; unfold gyd, gyd_of; destruct (Nat.ltb_spec (npb + i) nb) as [L|L].
      - apply mixed_rows; [unfold nb in L; lia|exact Hj].
      - f_equal; lia.
    Qed.
    Lemma dynamic_rows i j : i < nd -> j < nb ->
      radd O (radd O (mmul nd A0d gyd (ns + i) j) (Am (ns + i) j)) (mmul nf Ap (mmul nb gyp gym) (ns + i) j) = r0 O.
    Proof.
      intros Hi Hj; pose proof (HC i j ltac:(unfold N, nd, nb, nf in *; lia) Hj) as C.
      assert (EL : mmul nb (mmul N D (x_of nb gyp)) gym i j = radd O (mmul npb A0d gym (ns + i) j) (mmul nf Ap (mmul nb gyp gym) (ns + i) j)).
      { rewrite <- (mmul_assoc_entry F O RT nf nb Ap gyp gym (ns + i) j).
        assert (T1 : mmul npb A0d gym (ns + i) j = rsum nb (fun l => rmul O (if l <? npb then A0d (ns + i) l else r0 O) (gym l j))).
        { unfold nb; rewrite (rsum_split F O RT); rewrite (rsum_all_zero F O RT nm).
          - unfold Mat.mmul; rewrite (rsum_ext F O npb (fun l => rmul O (if l <? npb then A0d (ns + i) l else r0 O) (gym l j)) (fun l => rmul O (A0d (ns + i) l) (gym l j)));
              [ring|intros l Hl; rewrite (proj2 (Nat.ltb_lt l npb) Hl); reflexivity].
          - intros l Hl; rewrite (proj2 (Nat.ltb_ge (npb + l) npb) ltac:(lia)); ring. }
        rewrite T1; unfold Mat.mmul at 1 3; rewrite <- (rsum_add F O RT); apply rsum_ext; intros l Hl.
        unfold N, x_of; rewrite mmul_vcat, (mmul_id_r F O RT (Datatypes.S i) nb D) by lia; rewrite HD1 by lia.
        assert (T2 : mmul nf (fun i0 m => D i0 (nb + m)) gyp i l = mmul nf Ap gyp (ns + i) l).
        { unfold Mat.mmul; apply rsum_ext; intros m Hm; rewrite HD2 by lia; reflexivity. }
        rewrite T2; ring. }
      assert (ER : mmul N E (x_of nb gyp) i j = ropp O (radd O (Am (ns + i) j) (rsum nf (fun l => rmul O (A0d (ns + i) (npb + l)%nat) (gyp l j))))).
      { unfold N, x_of; rewrite mmul_vcat, (mmul_id_r F O RT (Datatypes.S i) nb E) by lia; rewrite HE1 by lia.
        assert (T2 : mmul nf (fun i0 m => E i0 (nb + m)) gyp i j = ropp O (rsum nf (fun l => rmul O (A0d (ns + i) (npb + l)%nat) (gyp l j)))).
        { rewrite <- (rsum_opp F O RT); unfold Mat.mmul; apply rsum_ext; intros m Hm; rewrite HE2 by lia; ring. }
        rewrite T2; ring. }
      rewrite EL, ER in C.
      assert (G : mmul nd A0d gyd (ns + i) j = radd O (mmul npb A0d gym (ns + i) j) (rsum nf (fun l => rmul O (A0d (ns + i) (npb + l)%nat) (gyp l j)))).
      { unfold nd, Mat.mmul; rewrite (rsum_split F O RT); f_equal; apply rsum_ext; intros l Hl; [|rewrite gyd_forward by assumption; reflexivity].
        unfold gyd, gyd_of; rewrite (proj2 (Nat.ltb_lt l nb) ltac:(unfold nb; lia)); reflexivity. }
      rewrite G.
      match type of C with radd O ?a ?b = ropp O (radd O ?c ?d) => transitivity (radd O (radd O a b) (radd O c d)); [ring|rewrite C; ring] end.
    Qed.

    Hypothesis HiA : meq ns ns (mmul ns As iA) mid.
    Definition rest_of : mat F := madd F O (madd F O (mmul nb (mmul nf Ap gyp) gym) (mmul nd A0d gyd)) Am.
    Definition gys_of : mat F := fun i j => ropp O (mmul ns iA rest_of i j).
    Lemma all_rows i j : i < n -> j < nb ->
      radd O (radd O (radd O (mmul ns As gys_of i j) (mmul nd A0d gyd i j)) (Am i j)) (mmul nf Ap (mmul nb gyp gym) i j) = r0 O.
    Proof.
      intros Hi Hj; destruct (Nat.ltb_spec i ns) as [L|L].
      - assert (E1 : mmul ns As gys_of i j = ropp O (rest_of i j)).
        { transitivity (ropp O (mmul ns As (mmul ns iA rest_of) i j)).
          { transitivity (rsum ns (fun l => ropp O (rmul O (As i l) (mmul ns iA rest_of l j)))).
            - change (rsum ns (fun l => rmul O (As i l) (ropp O (mmul ns iA rest_of l j))) = rsum ns (fun l => ropp O (rmul O (As i l) (mmul ns iA rest_of l j)))).
              apply rsum_ext; intros l _; ring.
            - apply (rsum_opp F O RT). }
          rewrite <- (mmul_assoc_entry F O RT ns ns As iA rest_of i j); f_equal.
          rewrite <- (mmul_id_l F O RT ns (Datatypes.S j) rest_of i j) by lia.
          apply (mmul_proper F O ns ns (Datatypes.S j) _ _ HiA rest_of rest_of ltac:(intros ? ? _ _; reflexivity)); lia. }
        rewrite E1; unfold rest_of, Mat.madd; rewrite (mmul_assoc_entry F O RT nf nb Ap gyp gym i j); ring.
      - replace i with (ns + (i - ns)) by lia.
        assert (E1 : mmul ns As gys_of (ns + (i - ns)) j = r0 O).
        { unfold Mat.mmul; apply (rsum_all_zero F O RT); intros l Hl; rewrite Hs0 by (unfold n in Hi; lia); ring. }
        rewrite E1; transitivity (radd O (radd O (mmul nd A0d gyd (ns + (i - ns)) j) (Am (ns + (i - ns)) j)) (mmul nf Ap (mmul nb gyp gym) (ns + (i - ns)) j)); [ring|].
        apply dynamic_rows; [unfold n in Hi; lia|exact Hj].
    Qed.

    (** Responses to shocks. *)
    Definition U_of : mat F := hcat F (ns + nb) (hcat F ns As (madd F O (mmul nf Ap gyp) A0d)) (fun i j => A0d i (nb + j)).
    Hypothesis Hgu : forall i j, i < n -> j < k -> rsum n (fun l => rmul O (U_of i l) (gu l j)) = ropp O (Fu i j).
    Lemma shock_rows i j : i < n -> j < k ->
      radd O (radd O (radd O (mmul ns As gu i j) (mmul nd A0d (fun l => gu (ns + l)%nat) i j)) (mmul nf Ap (mmul nb gyp (fun l => gu (ns + l)%nat)) i j)) (Fu i j) = r0 O.
    Proof.
      intros Hi Hj; pose proof (Hgu i j Hi Hj) as G.
      replace n with (ns + nb + npf) in G by (unfold n, nd, nb, nf; lia).
      rewrite (rsum_split F O RT (ns + nb) npf), (rsum_split F O RT ns nb) in G.
      rewrite (rsum_ext F O ns _ (fun l => rmul O (As i l) (gu l j))) in G
        by (intros l Hl; unfold U_of, hcat; rewrite (proj2 (Nat.ltb_lt l (ns + nb)) ltac:(lia)), (proj2 (Nat.ltb_lt l ns) Hl); reflexivity).
      rewrite (rsum_ext F O nb _ (fun l => radd O (rmul O (mmul nf Ap gyp i l) (gu (ns + l)%nat j)) (rmul O (A0d i l) (gu (ns + l)%nat j)))) in G
        by (intros l Hl; unfold U_of, hcat; rewrite (proj2 (Nat.ltb_lt (ns + l) (ns + nb)) ltac:(lia)), (proj2 (Nat.ltb_ge (ns + l) ns) ltac:(lia));
            unfold Mat.madd; replace (ns + l - ns) with l by lia; ring).
      rewrite (rsum_ext F O npf _ (fun l => rmul O (A0d i (nb + l)%nat) (gu (ns + (nb + l))%nat j))) in G
        by (intros l Hl; unfold U_of, hcat; rewrite (proj2 (Nat.ltb_ge (ns + nb + l) (ns + nb)) ltac:(lia));
            replace (ns + nb + l - (ns + nb)) with l by lia; rewrite Nat.add_assoc; reflexivity).
      rewrite (rsum_add F O RT) in G.
      rewrite <- (mmul_assoc_entry F O RT nf nb Ap gyp (fun l => gu (ns + l)%nat) i j).
      assert (E1 : mmul nd A0d (fun l => gu (ns + l)%nat) i j =
        radd O (rsum nb (fun l => rmul O (A0d i l) (gu (ns + l)%nat j))) (rsum npf (fun l => rmul O (A0d i (nb + l)%nat) (gu (ns + (nb + l))%nat j)))).
      { unfold Mat.mmul; replace nd with (nb + npf) by (unfold nd, nb, nf; lia); apply (rsum_split F O RT). }
      rewrite E1; unfold Mat.mmul at 1 2.
      match type of G with radd O (radd O ?a (radd O ?b ?c)) ?d = _ => transitivity (radd O (radd O (radd O a (radd O b c)) d) (Fu i j)); [unfold Mat.mmul; ring|rewrite G; ring] end.
    Qed.

    (** The equations at any lags and shocks. *)
    Definition gy_of : mat F := vcat ns gys_of gyd.
    Variables lag u now next : vec F.
    Hypothesis Hnow : forall i, i < n -> now i = radd O (rsum nb (fun j => rmul O (gy_of i j) (lag j))) (rsum k (fun l => rmul O (gu i l) (u l))).
    Hypothesis Hnext : forall i, i < n -> next i = rsum nb (fun j => rmul O (gy_of i j) (now (ns + j)%nat)).
    Lemma triple a b c (f : nat -> nat -> F) (g : nat -> nat -> F) (h : nat -> F) i :
      rsum a (fun l => rmul O (f i l) (rsum b (fun j => rmul O (g (c + l)%nat j) (h j)))) = rsum b (fun j => rmul O (mmul a f (fun l => g (c + l)%nat) i j) (h j)).
    Proof. exact (eq_sym (mmul_assoc_entry F O RT a b f (fun l => g (c + l)%nat) (col F h) i 0)). Qed.
    Lemma triple0 a b (f : nat -> nat -> F) (g : nat -> nat -> F) (h : nat -> F) i :
      rsum a (fun l => rmul O (f i l) (rsum b (fun j => rmul O (g l j) (h j)))) = rsum b (fun j => rmul O (mmul a f g i j) (h j)).
    Proof. exact (triple a b 0 f g h i). Qed.
    Lemma residual i : i < n ->
      radd O (radd O (radd O (radd O (rsum ns (fun l => rmul O (As i l) (now l))) (rsum nd (fun l => rmul O (A0d i l) (now (ns + l)%nat))))
        (rsum nb (fun j => rmul O (Am i j) (lag j)))) (rsum nf (fun l => rmul O (Ap i l) (next (ns + (npb + l))%nat)))) (rsum k (fun l => rmul O (Fu i l) (u l))) = r0 O.
    Proof.
      intros Hi.
      assert (Ns : rsum ns (fun l => rmul O (As i l) (now l)) =
        radd O (rsum nb (fun j => rmul O (mmul ns As gys_of i j) (lag j))) (rsum k (fun j => rmul O (mmul ns As gu i j) (u j)))).
      { rewrite <- (triple0 ns nb As gys_of lag i), <- (triple0 ns k As gu u i), <- (rsum_add F O RT); apply rsum_ext; intros l Hl.
        rewrite Hnow by (unfold n; lia); rewrite (rsum_ext F O nb _ (fun j => rmul O (gys_of l j) (lag j)))
          by (intros j _; unfold gy_of, Mat.vcat; rewrite (proj2 (Nat.ltb_lt l ns) Hl); reflexivity); cbn [Nat.add]; ring. }
      assert (Nd : forall i0, i0 < nd -> now (ns + i0) = radd O (rsum nb (fun j => rmul O (gyd i0 j) (lag j))) (rsum k (fun j => rmul O (gu (ns + i0)%nat j) (u j)))).
      { intros l Hl; rewrite Hnow by (unfold n; lia); f_equal; apply rsum_ext; intros j _; unfold gy_of, Mat.vcat.
        rewrite (proj2 (Nat.ltb_ge (ns + l) ns) ltac:(lia)); do 2 f_equal; lia. }
      assert (N0 : rsum nd (fun l => rmul O (A0d i l) (now (ns + l)%nat)) =
        radd O (rsum nb (fun j => rmul O (mmul nd A0d gyd i j) (lag j))) (rsum k (fun j => rmul O (mmul nd A0d (fun l => gu (ns + l)%nat) i j) (u j)))).
      { rewrite <- (triple0 nd nb A0d gyd lag i), <- (triple nd k ns A0d gu u i), <- (rsum_add F O RT); apply rsum_ext; intros l Hl.
        rewrite Nd by exact Hl; cbn [Nat.add]; ring. }
      assert (Np : rsum nf (fun l => rmul O (Ap i l) (next (ns + (npb + l))%nat)) =
        radd O (rsum nb (fun j => rmul O (mmul nf Ap (mmul nb gyp gym) i j) (lag j))) (rsum k (fun j => rmul O (mmul nf Ap (mmul nb gyp (fun l => gu (ns + l)%nat)) i j) (u j)))).
      { rewrite <- (triple0 nf nb Ap (mmul nb gyp gym) lag i), <- (triple0 nf k Ap (mmul nb gyp (fun l => gu (ns + l)%nat)) u i), <- (rsum_add F O RT).
        apply rsum_ext; intros l Hl; cbn [Nat.add]; rewrite Hnext by (unfold n, nd; lia).
        rewrite <- (triple0 nb nb gyp gym lag l), <- (triple nb k ns gyp gu u l).
        transitivity (rmul O (Ap i l) (radd O (rsum nb (fun l0 => rmul O (gyp l l0) (rsum nb (fun j => rmul O (gym l0 j) (lag j)))))
           (rsum nb (fun l0 => rmul O (gyp l l0) (rsum k (fun j => rmul O (gu (ns + l0)%nat j) (u j))))))); [|ring]; f_equal.
        rewrite <- (rsum_add F O RT); apply rsum_ext; intros j Hj; rewrite Nd by (unfold nd, nb, nf in *; lia).
        assert (Gl : gy_of (ns + (npb + l)) j = gyp l j).
        { unfold gy_of, Mat.vcat; rewrite (proj2 (Nat.ltb_ge (ns + (npb + l)) ns) ltac:(lia)); replace (ns + (npb + l) - ns) with (npb + l) by lia; apply gyd_forward; assumption. }
        rewrite Gl; rewrite (rsum_ext F O nb (fun j0 => rmul O (gyd j j0) (lag j0)) (fun j0 => rmul O (gym j j0) (lag j0)))
          by (intros m _; unfold gyd, gyd_of; rewrite (proj2 (Nat.ltb_lt j nb) Hj); reflexivity); ring. }
      rewrite Ns, N0, Np.
      transitivity (radd O
        (rsum nb (fun j => rmul O (radd O (radd O (radd O (mmul ns As gys_of i j) (mmul nd A0d gyd i j)) (Am i j)) (mmul nf Ap (mmul nb gyp gym) i j)) (lag j)))
        (rsum k (fun j => rmul O (radd O (radd O (radd O (mmul ns As gu i j) (mmul nd A0d (fun l => gu (ns + l)%nat) i j)) (mmul nf Ap (mmul nb gyp (fun l => gu (ns + l)%nat)) i j)) (Fu i j)) (u j)))).
      - rewrite (rsum_ext F O nb (fun j => rmul O (radd O (radd O (radd O (mmul ns As gys_of i j) (mmul nd A0d gyd i j)) (Am i j)) (mmul nf Ap (mmul nb gyp gym) i j)) (lag j))
          (fun j => radd O (radd O (radd O (rmul O (mmul ns As gys_of i j) (lag j)) (rmul O (mmul nd A0d gyd i j) (lag j))) (rmul O (Am i j) (lag j))) (rmul O (mmul nf Ap (mmul nb gyp gym) i j) (lag j)))) by (intros; ring).
        rewrite (rsum_ext F O k (fun j => rmul O (radd O (radd O (radd O (mmul ns As gu i j) (mmul nd A0d (fun l => gu (ns + l)%nat) i j)) (mmul nf Ap (mmul nb gyp (fun l => gu (ns + l)%nat)) i j)) (Fu i j)) (u j))
          (fun j => radd O (radd O (radd O (rmul O (mmul ns As gu i j) (u j)) (rmul O (mmul nd A0d (fun l => gu (ns + l)%nat) i j) (u j))) (rmul O (mmul nf Ap (mmul nb gyp (fun l => gu (ns + l)%nat)) i j) (u j))) (rmul O (Fu i j) (u j)))) by (intros; ring).
        rewrite !(rsum_add F O RT); ring.
      - rewrite (rsum_all_zero F O RT nb), (rsum_all_zero F O RT k); [ring| |].
        + intros j Hj; rewrite shock_rows by assumption; ring.
        + intros j Hj; rewrite all_rows by assumption; ring.
    Qed.
  End Model.
End Core.
