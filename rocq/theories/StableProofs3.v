(** The paths of the linearised equations, in the order of the decision rules. *)
From Verif Require Import Base Nd NdProofs Mat MatProofs IndexingSpec SimSpec OrderProofs FirstOrder FirstOrderSpec FirstOrderProofs2 StableSpec StableProofs StableProofs2.
From Coq Require Import Ring Field.

Section Positions.
  Variable F : Type.
  Variable O : rops F.
  Variable finv : F -> F.
  Variable FT : is_field O finv.
  Variable le : F -> F -> Prop.
  Hypothesis OR : is_ordered O le.
  Hypothesis dec : forall x y : F, x = y \/ x <> y.
  Let FT' : field_theory (r0 O) (r1 O) (radd O) (rmul O) (rsub O) (ropp O) (rdiv O) finv eq := FT.
  Add Field FfieldPos : FT'.
  Let RT : is_ring O := F_R FT'.
  Local Notation rsum := (Nd.rsum F O).
  Local Notation mmul := (Mat.mmul F O).
  Local Notation mid := (Mat.mid F O).
  Local Notation mtr := (Mat.mtr F).
  Local Notation meq := (Mat.meq F).
  Local Notation SS := Datatypes.S.
  Local Notation bnd := (StableProofs.bnd F O le).

  Variables ns npb nm npf k : nat.
  Let nb := (npb + nm)%nat.
  Let nf := (nm + npf)%nat.
  Let N := (nb + nf)%nat.
  Let nd := (npb + nf)%nat.
  Let n := (ns + nd)%nat.
  Variables As A0d Am Ap Fu : mat F.
  Hypothesis Hs0 : forall i j, i < nd -> j < ns -> As (ns + i) j = r0 O.
  Variables D E : mat F.
  Hypothesis HD1 : forall i j, i < nd -> j < nb -> D i j = if j <? npb then A0d (ns + i) j else r0 O.
  Hypothesis HD2 : forall i j, i < nd -> j < nf -> D i (nb + j) = Ap (ns + i) j.
  Hypothesis HD3 : forall i j, i < nm -> j < nb -> D (nd + i) j = if j =? npb + i then r1 O else r0 O.
  Hypothesis HD4 : forall i j, i < nm -> j < nf -> D (nd + i) (nb + j) = r0 O.
  Hypothesis HE1 : forall i j, i < nd -> j < nb -> E i j = ropp O (Am (ns + i) j).
  Hypothesis HE2 : forall i j, i < nd -> j < nf -> E i (nb + j) = ropp O (A0d (ns + i) (npb + j)).
  Hypothesis HE3 : forall i j, i < nm -> j < nb -> E (nd + i) j = r0 O.
  Hypothesis HE4 : forall i j, i < nm -> j < nf -> E (nd + i) (nb + j) = if j =? i then r1 O else r0 O.
  Variable q : schur F.
  Hypothesis Sf : schur_form F O le N E D q.
  Hypothesis Fq : forall j re im, j < N -> nth j (q_eig q) Nan = Fin re im -> q_T q j j <> r0 O.
  Hypothesis Sep : separated F O le (q_eig q) nb.
  Let Zm := mtr (q_Z q).
  Variables gp it iz : mat F.
  Hypothesis Hp : forall i j, i < nf -> j < nb -> rsum nf (fun l => rmul O (Zm (nb + i) (nb + l)) (gp l j)) = ropp O (Zm (nb + i) j).
  Hypothesis HiT : meq nb nb (mmul nb (q_T q) it) mid.
  Hypothesis HiW : meq nb nb (mmul nb (mtr Zm) iz) mid.
  Hypothesis HWi : meq nb nb (mmul nb iz (mtr Zm)) mid.

  Lemma t0 a b (f g : mat F) (h : nat -> F) i : rsum a (fun l => rmul O (f i l) (rsum b (fun j => rmul O (g l j) (h j)))) = rsum b (fun j => rmul O (mmul a f g i j) (h j)).
  Proof using ns k nd n FT. apply (triple0 F O RT). Qed.
  Lemma as_id a (M : mat F) (h : nat -> F) i : meq a a M mid -> i < a -> rsum a (fun j => rmul O (M i j) (h j)) = h i.
  Proof using ns k nd n FT.
    intros H Hi; rewrite (rsum_single F O RT a i).
    - rewrite H by assumption; unfold Mat.mid; rewrite Nat.eqb_refl; ring.
    - exact Hi.
    - intros j Hj Ne; rewrite H by assumption; unfold Mat.mid; destruct (Nat.eqb_spec i j); [congruence|ring].
  Qed.
  Lemma sub_eq x y : rsub O x y = r0 O -> x = y.
  Proof using ns k nd n FT. intros H; transitivity (radd O (rsub O x y) y); [ring|rewrite H; ring]. Qed.
  Lemma of_Zm : meq N N (mmul N (mtr Zm) Zm) mid.
  Proof using ns k nd n Sf. intros i j Hi Hj; exact (proj2 (f_Z _ _ _ _ _ _ _ Sf) i j Hi Hj). Qed.
  Lemma of_Q : meq N N (mmul N (mtr (q_Q q)) (q_Q q)) mid.
  Proof using ns k nd n Sf. intros i j Hi Hj; exact (proj1 (f_Q _ _ _ _ _ _ _ Sf) i j Hi Hj). Qed.
  Lemma D_is : meq N N D (mmul N (q_Q q) (mmul N (q_T q) Zm)).
  Proof using ns k nd n FT Sf.
    intros i j Hi Hj; rewrite <- (f_B _ _ _ _ _ _ _ Sf i j Hi Hj); change (Sum F O) with rsum; unfold Mat.mmul; apply rsum_ext; intros x _.
    rewrite <- (rsum_mul_l F O RT); apply rsum_ext; intros y _; unfold Zm, Mat.mtr; ring.
  Qed.
  Lemma E_is : meq N N E (mmul N (q_Q q) (mmul N (q_S q) Zm)).
  Proof using ns k nd n FT Sf.
    intros i j Hi Hj; rewrite <- (f_A _ _ _ _ _ _ _ Sf i j Hi Hj); change (Sum F O) with rsum; unfold Mat.mmul; apply rsum_ext; intros x _.
    rewrite <- (rsum_mul_l F O RT); apply rsum_ext; intros y _; unfold Zm, Mat.mtr; ring.
  Qed.

  (** No block of roots lies on both sides of the cut. *)
  Lemma clean_cut : clean F O N q nb.
  Proof using ns k nd n FT OR dec Sf Sep.
    intros Hn i Ei; destruct (dec (q_S q nb i) (r0 O)) as [Z0|Z0]; [exact Z0|exfalso].
    destruct Sep as (_ & In & Out); rewrite (f_len _ _ _ _ _ _ _ Sf) in Out.
    rewrite Ei in Z0; destruct (f_two _ _ _ _ _ _ _ Sf i ltac:(lia) Z0) as (re & im & E1 & E2 & _).
    specialize (In i ltac:(lia)); specialize (Out (SS i) ltac:(lia)); rewrite E1 in In; rewrite E2 in Out; cbn in In, Out; apply Out, (not_le_le F O le OR).
    replace (rmul O (ropp O im) (ropp O im)) with (rmul O im im) by ring; exact In.
  Qed.
  Lemma low_T i j : nb <= i < N -> j < nb -> q_T q i j = r0 O.
  Proof using ns k nd n Sf. intros Hi Hj; apply (f_T _ _ _ _ _ _ _ Sf); lia. Qed.
  Lemma low_S i j : nb <= i < N -> j < nb -> q_S q i j = r0 O.
  Proof using ns k nd n FT OR dec Sf Sep.
    intros Hi Hj; destruct (Nat.eq_dec i (SS j)) as [Ei|Ei]; [|apply (f_S _ _ _ _ _ _ _ Sf); lia].
    assert (Hn : nb = SS j) by lia; rewrite Ei, <- Hn; exact (clean_cut ltac:(lia) j Hn).
  Qed.

  (** The equations of one period, at the rotated derivatives. *)
  Definition holds (lag : nat -> F) (now next u : nat -> F) : Prop := forall i, i < n ->
    radd O (radd O (radd O (radd O (rsum ns (fun l => rmul O (As i l) (now l))) (rsum nd (fun l => rmul O (A0d i l) (now (ns + l)%nat))))
      (rsum nb (fun j => rmul O (Am i j) (lag j)))) (rsum nf (fun l => rmul O (Ap i l) (next (ns + (npb + l))%nat)))) (rsum k (fun l => rmul O (Fu i l) (u l))) = r0 O.

  Section Bounded.
    Hypothesis AR : archimedean F O le.
    Variable y : nat -> nat -> F.
    Hypothesis Hy : forall t, holds (fun j => y t (ns + j)%nat) (y (SS t)) (y (SS (SS t))) (fun _ => r0 O).
    Hypothesis By : forall i, i < n -> bnd (fun t => y t i).
    Definition XX t : nat -> F := fun j => if j <? nb then y t (ns + j)%nat else y (SS t) (ns + (npb + (j - nb)))%nat.
    Lemma XX_top t j : j < nb -> XX t j = y t (ns + j)%nat.
    Proof. intros H; unfold XX; rewrite (proj2 (Nat.ltb_lt j nb) H); reflexivity. Qed.
    Lemma XX_low t l : XX t (nb + l)%nat = y (SS t) (ns + (npb + l))%nat.
    Proof. unfold XX; rewrite (proj2 (Nat.ltb_ge (nb + l) nb)) by lia; do 3 f_equal; lia. Qed.
    Lemma pencil t i : i < N -> rsum N (fun l => rmul O (D i l) (XX (SS t) l)) = rsum N (fun l => rmul O (E i l) (XX t l)).
    Proof using ns k nd n FT Hs0 HD1 HD2 HD3 HD4 HE1 HE2 HE3 HE4 Hy.
      intros Hi; unfold N; rewrite !(rsum_split F O RT nb nf).
      rewrite (rsum_ext F O nf (fun l => rmul O (D i (nb + l)%nat) (XX (SS t) (nb + l)%nat)) (fun l => rmul O (D i (nb + l)%nat) (y (SS (SS t)) (ns + (npb + l))%nat))) by (intros l _; rewrite XX_low; reflexivity).
      rewrite (rsum_ext F O nf (fun l => rmul O (E i (nb + l)%nat) (XX t (nb + l)%nat)) (fun l => rmul O (E i (nb + l)%nat) (y (SS t) (ns + (npb + l))%nat))) by (intros l _; rewrite XX_low; reflexivity).
      rewrite (rsum_ext F O nb (fun l => rmul O (D i l) (XX (SS t) l)) (fun l => rmul O (D i l) (y (SS t) (ns + l)%nat))) by (intros l Hl; rewrite XX_top by exact Hl; reflexivity).
      rewrite (rsum_ext F O nb (fun l => rmul O (E i l) (XX t l)) (fun l => rmul O (E i l) (y t (ns + l)%nat))) by (intros l Hl; rewrite XX_top by exact Hl; reflexivity).
      destruct (Nat.ltb_spec i nd) as [L|L].
      - pose proof (Hy t (ns + i)%nat ltac:(unfold n; lia)) as H; cbn beta in H.
        rewrite (rsum_all_zero F O RT ns) in H by (intros l Hl; rewrite Hs0 by assumption; ring).
        rewrite (rsum_all_zero F O RT k) in H by (intros l Hl; ring).
        unfold nd in H at 1; rewrite (rsum_split F O RT npb nf) in H.
        assert (D1 : rsum nb (fun l => rmul O (D i l) (y (SS t) (ns + l)%nat)) = rsum npb (fun l => rmul O (A0d (ns + i)%nat l) (y (SS t) (ns + l)%nat))).
        { unfold nb at 1; rewrite (rsum_split F O RT npb nm), (rsum_all_zero F O RT nm).
          - rewrite (rsum_ext F O npb _ (fun l => rmul O (A0d (ns + i)%nat l) (y (SS t) (ns + l)%nat))); [ring|].
            intros l Hl; rewrite HD1 by (unfold nb; lia); rewrite (proj2 (Nat.ltb_lt l npb) Hl); reflexivity.
          - intros l Hl; rewrite HD1 by (unfold nb; lia); rewrite (proj2 (Nat.ltb_ge (npb + l) npb)) by lia; ring. }
        assert (D2 : rsum nf (fun l => rmul O (D i (nb + l)%nat) (y (SS (SS t)) (ns + (npb + l))%nat)) = rsum nf (fun l => rmul O (Ap (ns + i)%nat l) (y (SS (SS t)) (ns + (npb + l))%nat)))
          by (apply rsum_ext; intros l Hl; rewrite HD2 by assumption; reflexivity).
        assert (E1 : rsum nb (fun l => rmul O (E i l) (y t (ns + l)%nat)) = ropp O (rsum nb (fun j => rmul O (Am (ns + i)%nat j) (y t (ns + j)%nat)))).
        { rewrite <- (rsum_opp F O RT); apply rsum_ext; intros l Hl; rewrite HE1 by assumption; ring. }
        assert (E2 : rsum nf (fun l => rmul O (E i (nb + l)%nat) (y (SS t) (ns + (npb + l))%nat)) = ropp O (rsum nf (fun l => rmul O (A0d (ns + i)%nat (npb + l)%nat) (y (SS t) (ns + (npb + l))%nat)))).
        { rewrite <- (rsum_opp F O RT); apply rsum_ext; intros l Hl; rewrite HE2 by assumption; ring. }
        rewrite D1, D2, E1, E2.
        match type of H with radd O (radd O (radd O (radd O _ (radd O ?a ?b)) ?c) ?d) _ = _ => apply sub_eq; transitivity (radd O (radd O (radd O (radd O (r0 O) (radd O a b)) c) d) (r0 O)); [ring|exact H] end.
      - replace i with (nd + (i - nd))%nat by lia; set (i' := (i - nd)%nat); assert (Hi' : i' < nm) by (unfold i', N, nd, nb, nf in *; lia).
        rewrite (rsum_single F O RT nb (npb + i')); [|unfold nb; lia|intros l Hl Ne; rewrite HD3 by assumption; destruct (Nat.eqb_spec l (npb + i')); [congruence|ring]].
        rewrite HD3, Nat.eqb_refl by (unfold nb; lia).
        rewrite (rsum_all_zero F O RT nf) by (intros l Hl; rewrite HD4 by assumption; ring).
        rewrite (rsum_all_zero F O RT nb) by (intros l Hl; rewrite HE3 by assumption; ring).
        rewrite (rsum_single F O RT nf i'); [|unfold nf; lia|intros l Hl Ne; rewrite HE4 by assumption; destruct (Nat.eqb_spec l i'); [congruence|ring]].
        rewrite HE4, Nat.eqb_refl by (unfold nf; lia); ring.
    Qed.
    Definition ww t i := rsum N (fun l => rmul O (Zm i l) (XX t l)).
    Lemma turned (M : mat F) (B : mat F) v i : meq N N B (mmul N (q_Q q) (mmul N M Zm)) -> i < N ->
      rsum N (fun l => rmul O (mtr (q_Q q) i l) (rsum N (fun m => rmul O (B l m) (v m)))) = rsum N (fun l => rmul O (M i l) (rsum N (fun m => rmul O (Zm l m) (v m)))).
    Proof using ns k nd n FT Sf.
      intros HB Hi; rewrite t0, (t0 N N M Zm v i).
      assert (K : meq N N (mmul N (mtr (q_Q q)) B) (mmul N M Zm)).
      { rewrite HB, <- (mmul_assoc F O RT N N N N (mtr (q_Q q)) (q_Q q) (mmul N M Zm)), of_Q; apply (mmul_id_l F O RT). }
      apply rsum_ext; intros m Hm; rewrite K by assumption; reflexivity.
    Qed.
    Lemma ww_moves t i : i < N -> rsum N (fun l => rmul O (q_T q i l) (ww (SS t) l)) = rsum N (fun l => rmul O (q_S q i l) (ww t l)).
    Proof using ns k nd n FT Sf Hs0 HD1 HD2 HD3 HD4 HE1 HE2 HE3 HE4 Hy.
      intros Hi; unfold ww.
      rewrite <- (turned (q_T q) D (XX (SS t)) i D_is Hi), <- (turned (q_S q) E (XX t) i E_is Hi).
      apply rsum_ext; intros l Hl; rewrite pencil by exact Hl; reflexivity.
    Qed.
    Lemma XX_bnd j : j < N -> bnd (fun t => XX t j).
    Proof using ns k nd n By.
      intros Hj; unfold XX; destruct (Nat.ltb_spec j nb) as [L|L].
      - apply By; unfold n, nd, nb, nf in *; lia.
      - apply (bnd_shift F O le (fun t => y t (ns + (npb + (j - nb)))%nat)), By; unfold n, nd, nb, nf, N in *; lia.
    Qed.
    Lemma ww_zero t i : nb <= i < N -> ww t i = r0 O.
    Proof using ns k nd n FT OR dec Sf Fq Sep AR By Hs0 HD1 HD2 HD3 HD4 HE1 HE2 HE3 HE4 Hy.
      intros Hi; refine (unstable_zero F O finv FT le OR dec N E D q Sf Fq AR nb _ clean_cut _ ww _ _ i Hi t).
      - unfold N; lia.
      - destruct Sep as (_ & _ & Out); rewrite (f_len _ _ _ _ _ _ _ Sf) in Out; exact Out.
      - intros t' j Hj; apply ww_moves; lia.
      - intros j Hj; unfold ww; apply (bnd_sum F O finv FT le OR N (fun t l => rmul O (Zm j l) (XX t l))); intros l Hl.
        apply (bnd_scale F O finv FT le OR), XX_bnd, Hl.
    Qed.
    (** What is expected of the variables with a lead, given those with a lag. *)
    Lemma forward_is t l : l < nf -> y (SS t) (ns + (npb + l))%nat = rsum nb (fun j => rmul O (gp l j) (y t (ns + j)%nat)).
    Proof using ns k nd n FT OR dec Sf Fq Sep AR By Hs0 HD1 HD2 HD3 HD4 HE1 HE2 HE3 HE4 Hy Hp HWi.
      intros Hl.
      set (b := fun j => y t (ns + j)%nat).
      set (v := fun j => rsub O (XX t j) (if j <? nb then b j else rsum nb (fun m => rmul O (gp (j - nb)%nat m) (b m)))).
      assert (Vt : forall j, j < nb -> v j = r0 O) by (intros j Hj; unfold v, XX; rewrite (proj2 (Nat.ltb_lt j nb) Hj); unfold b; ring).
      set (z := fun i => rsum N (fun m => rmul O (Zm i m) (v m))).
      assert (Zl : forall i, nb <= i < N -> z i = r0 O).
      { intros i Hi; unfold z; transitivity (rsub O (ww t i) (rsum N (fun m => rmul O (Zm i m) (if m <? nb then b m else rsum nb (fun m' => rmul O (gp (m - nb)%nat m') (b m')))))).
        - unfold ww, v; rewrite <- (rsum_sub F O RT); apply rsum_ext; intros m _; ring.
        - rewrite ww_zero by exact Hi; unfold N; rewrite (rsum_split F O RT nb nf).
          rewrite (rsum_ext F O nb (fun i0 => rmul O (Zm i i0) (if i0 <? nb then b i0 else _)) (fun m => rmul O (Zm i m) (b m))) by (intros m Hm; rewrite (proj2 (Nat.ltb_lt m nb) Hm); reflexivity).
          rewrite (rsum_ext F O nf _ (fun m => rmul O (Zm i (nb + m)%nat) (rsum nb (fun m' => rmul O (gp m m') (b m'))))).
          2:{ intros m Hm; rewrite (proj2 (Nat.ltb_ge (nb + m) nb)) by lia; do 2 f_equal; replace (nb + m - nb)%nat with m by lia; reflexivity. }
          rewrite (t0 nf nb (fun i m => Zm i (nb + m)%nat) gp b i), <- (rsum_add F O RT), (rsum_all_zero F O RT nb); [ring|].
          intros m Hm; replace (mmul nf (fun i0 m0 => Zm i0 (nb + m0)%nat) gp i m) with (ropp O (Zm i m)); [ring|].
          replace i with (nb + (i - nb))%nat by lia; symmetry; apply Hp; unfold N in *; lia. }
      assert (Vz : forall i, i < N -> v i = rsum nb (fun m => rmul O (mtr Zm i m) (z m))).
      { intros i Hi; transitivity (rsum N (fun m => rmul O (mtr Zm i m) (z m))).
        - unfold z; rewrite t0; symmetry; apply as_id; [exact of_Zm|exact Hi].
        - unfold N; rewrite (rsum_split F O RT nb nf), (rsum_all_zero F O RT nf) by (intros m Hm; rewrite Zl by (unfold N; lia); ring); ring. }
      assert (Z0 : forall i, i < nb -> z i = r0 O).
      { intros i Hi; rewrite <- (as_id nb (mmul nb iz (mtr Zm)) z i HWi Hi), <- t0; apply (rsum_all_zero F O RT); intros m Hm.
        rewrite <- Vz by (unfold N; lia); rewrite Vt by exact Hm; ring. }
      assert (V0 : v (nb + l)%nat = r0 O).
      { rewrite Vz by (unfold N; lia); apply (rsum_all_zero F O RT); intros m Hm; rewrite Z0 by exact Hm; ring. }
      unfold v in V0; rewrite XX_low in V0; rewrite (proj2 (Nat.ltb_ge (nb + l) nb)) in V0 by lia; replace (nb + l - nb)%nat with l in V0 by lia.
      match type of V0 with rsub O ?a ?c = _ => transitivity (radd O (rsub O a c) c); [ring|rewrite V0; unfold b; ring] end.
    Qed.
  End Bounded.

  (** Today's values are the only ones. *)
  Lemma today lag now next u : holds lag now next u -> (forall l, l < nf -> next (ns + (npb + l))%nat = rsum nb (fun j => rmul O (gp l j) (now (ns + j)%nat))) ->
    forall i, i < n -> rsum n (fun l => rmul O (U_of F O ns npb nm npf As A0d Ap gp i l) (now l)) =
      ropp O (radd O (rsum nb (fun j => rmul O (Am i j) (lag j))) (rsum k (fun l => rmul O (Fu i l) (u l)))).
  Proof using ns k nd n FT.
    intros H Hn i Hi; specialize (H i Hi).
    assert (G : rsum n (fun l => rmul O (U_of F O ns npb nm npf As A0d Ap gp i l) (now l)) =
      radd O (radd O (rsum ns (fun l => rmul O (As i l) (now l))) (rsum nd (fun l => rmul O (A0d i l) (now (ns + l)%nat)))) (rsum nf (fun l => rmul O (Ap i l) (next (ns + (npb + l))%nat)))).
    { replace n with (ns + nb + npf)%nat by (unfold n, nd, nb, nf; lia).
      rewrite (rsum_split F O RT (ns + nb) npf), (rsum_split F O RT ns nb).
      rewrite (rsum_ext F O ns _ (fun l => rmul O (As i l) (now l)))
        by (intros l Hl; unfold U_of, hcat; fold nb; rewrite (proj2 (Nat.ltb_lt l (ns + nb)) ltac:(lia)), (proj2 (Nat.ltb_lt l ns) Hl); reflexivity).
      rewrite (rsum_ext F O nb _ (fun l => radd O (rmul O (mmul nf Ap gp i l) (now (ns + l)%nat)) (rmul O (A0d i l) (now (ns + l)%nat))))
        by (intros l Hl; unfold U_of, hcat; fold nb nf; rewrite (proj2 (Nat.ltb_lt (ns + l) (ns + nb)) ltac:(lia)), (proj2 (Nat.ltb_ge (ns + l) ns) ltac:(lia));
            unfold Mat.madd; replace (ns + l - ns) with l by lia; ring).
      rewrite (rsum_ext F O npf _ (fun l => rmul O (A0d i (nb + l)%nat) (now (ns + (nb + l))%nat)))
        by (intros l Hl; unfold U_of, hcat; fold nb; rewrite (proj2 (Nat.ltb_ge (ns + nb + l) (ns + nb)) ltac:(lia));
            replace (ns + nb + l - (ns + nb)) with l by lia; rewrite Nat.add_assoc; reflexivity).
      rewrite (rsum_add F O RT).
      rewrite (rsum_ext F O nf (fun l => rmul O (Ap i l) (next (ns + (npb + l))%nat)) (fun l => rmul O (Ap i l) (rsum nb (fun j => rmul O (gp l j) (now (ns + j)%nat)))))
        by (intros l Hl; rewrite Hn by exact Hl; reflexivity).
      rewrite (t0 nf nb Ap gp (fun j => now (ns + j)%nat) i).
      replace nd with (nb + npf)%nat by (unfold nd, nb, nf; lia); rewrite (rsum_split F O RT nb npf); ring. }
    rewrite G.
    match type of H with radd O (radd O (radd O ?a ?c) ?d) ?e = _ => apply sub_eq; transitivity (radd O (radd O (radd O a c) d) e); [ring|exact H] end.
  Qed.

  (** The rule keeps the states bounded. *)
  Section Stability.
    Let gm := mmul nb (mmul nb (mtr Zm) it) (mmul nb (q_S q) iz).
    Variables b c : nat -> nat -> F.
    Hypothesis Hb : forall t i, i < nb -> b (SS t) i = radd O (rsum nb (fun j => rmul O (gm i j) (b t j))) (c t i).
    Hypothesis Bc : forall i, i < nb -> bnd (fun t => c t i).
    Lemma states_bounded i : i < nb -> bnd (fun t => b t i).
    Proof using ns k nd n FT OR dec Sf Fq Sep HiT HiW HWi Hb Bc.
      set (w := fun t i => rsum nb (fun j => rmul O (iz i j) (b t j))).
      set (c' := fun t i => rsum nb (fun j => rmul O (q_T q i j) (rsum nb (fun m => rmul O (iz j m) (c t m))))).
      assert (Bw : forall j, 0 <= j < nb -> bnd (fun t => w t j)).
      { apply (stable_bounded F O finv FT le OR dec N E D q Sf Fq nb ltac:(unfold N; lia) clean_cut) with (c := c').
        - exact (proj1 (proj2 Sep)).
        - intros t j Hj.
          assert (W : forall l, l < nb -> w (SS t) l = radd O (rsum nb (fun m => rmul O (mmul nb it (q_S q) l m) (w t m))) (rsum nb (fun m => rmul O (iz l m) (c t m)))).
          { intros l Hl; unfold w at 1.
            rewrite (rsum_ext F O nb _ (fun m => radd O (rmul O (iz l m) (rsum nb (fun j => rmul O (gm m j) (b t j)))) (rmul O (iz l m) (c t m)))) by (intros m Hm; rewrite Hb by exact Hm; ring).
            rewrite (rsum_add F O RT); f_equal; rewrite t0; unfold w; rewrite t0; apply rsum_ext; intros m Hm; f_equal.
            assert (K : meq nb nb (mmul nb iz gm) (mmul nb (mmul nb it (q_S q)) iz)).
            { unfold gm; rewrite <- (mmul_assoc F O RT nb nb nb nb iz (mmul nb (mtr Zm) it) (mmul nb (q_S q) iz)).
              rewrite <- (mmul_assoc F O RT nb nb nb nb iz (mtr Zm) it), HWi, (mmul_id_l F O RT), (mmul_assoc F O RT nb nb nb nb it (q_S q) iz); reflexivity. }
            apply K; assumption. }
          rewrite (rsum_ext F O nb (fun l => rmul O (q_T q j l) (w (SS t) l)) (fun l => radd O (rmul O (q_T q j l) (rsum nb (fun m => rmul O (mmul nb it (q_S q) l m) (w t m)))) (rmul O (q_T q j l) (rsum nb (fun m => rmul O (iz l m) (c t m))))))
            by (intros l Hl; rewrite W by exact Hl; ring).
          rewrite (rsum_add F O RT); f_equal; rewrite t0; apply rsum_ext; intros m Hm; f_equal.
          assert (K : meq nb nb (mmul nb (q_T q) (mmul nb it (q_S q))) (q_S q)).
          { rewrite <- (mmul_assoc F O RT nb nb nb nb (q_T q) it (q_S q)), HiT; apply (mmul_id_l F O RT). }
          apply K; assumption.
        - intros j Hj; unfold c'; apply (bnd_sum F O finv FT le OR nb (fun t l => rmul O (q_T q j l) (rsum nb (fun m => rmul O (iz l m) (c t m))))); intros l Hl.
          apply (bnd_scale F O finv FT le OR), (bnd_sum F O finv FT le OR nb (fun t m => rmul O (iz l m) (c t m))); intros m Hm; apply (bnd_scale F O finv FT le OR), Bc, Hm. }
      intros Hi; apply (StableProofs.bnd_ext F O le (fun t => rsum nb (fun j => rmul O (mtr Zm i j) (w t j)))).
      - intros t; unfold w; rewrite t0; apply as_id; [exact HiW|exact Hi].
      - apply (bnd_sum F O finv FT le OR nb (fun t j => rmul O (mtr Zm i j) (w t j))); intros j Hj; apply (bnd_scale F O finv FT le OR), Bw; lia.
    Qed.
  End Stability.
End Positions.
