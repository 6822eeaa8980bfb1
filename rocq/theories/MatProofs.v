(** Matrix algebra. *)
From Verif Require Import Base Nd NdProofs SimSpec Mat.
From Coq Require Export Setoid Morphisms Ring.

#[export] Instance meq_equiv F r c : Equivalence (meq F r c).
Proof.
  split; [intros a i j _ _; reflexivity|intros a b H i j Hi Hj; symmetry; apply H; assumption|].
  intros a b d H K i j Hi Hj; rewrite H by assumption; apply K; assumption.
Qed.
#[export] Instance veq_equiv F n : Equivalence (veq F n).
Proof.
  split; [intros a i _; reflexivity|intros a b H i Hi; symmetry; apply H; assumption|].
  intros a b d H K i Hi; rewrite H by assumption; apply K; assumption.
Qed.

Section Algebra.
  Variable F : Type.
  Variable O : rops F.
  Hypothesis RT : is_ring O.
  Let RT' : ring_theory (r0 O) (r1 O) (radd O) (rmul O) (rsub O) (ropp O) eq := RT.
  Add Ring MatRing : RT'.
  Local Notation rsum := (rsum F O).
  Local Notation meq := (meq F).
  Local Notation veq := (veq F).
  Local Notation mmul := (mmul F O).
  Local Notation madd := (madd F O).
  Local Notation msub := (msub F O).
  Local Notation mopp := (mopp F O).
  Local Notation mid := (mid F O).
  Local Notation mtr := (mtr F).
  Local Notation mvec := (mvec F O).
  Local Notation vadd := (vadd F O).
  Local Notation vopp := (vopp F O).

  Global Instance madd_proper r c : Proper (meq r c ==> meq r c ==> meq r c) madd.
  Proof. intros a a' H b b' K i j Hi Hj; unfold Mat.madd; rewrite H, K by assumption; reflexivity. Qed.
  Global Instance msub_proper r c : Proper (meq r c ==> meq r c ==> meq r c) msub.
  Proof. intros a a' H b b' K i j Hi Hj; unfold Mat.msub; rewrite H, K by assumption; reflexivity. Qed.
  Global Instance mopp_proper r c : Proper (meq r c ==> meq r c) mopp.
  Proof. intros a a' H i j Hi Hj; unfold Mat.mopp; rewrite H by assumption; reflexivity. Qed.
  Global Instance mmul_proper r m c : Proper (meq r m ==> meq m c ==> meq r c) (mmul m).
  Proof.
    intros a a' H b b' K i j Hi Hj; unfold Mat.mmul; apply rsum_ext; intros k Hk; rewrite H, K by assumption; reflexivity.
  Qed.
  Global Instance mtr_proper r c : Proper (meq r c ==> meq c r) mtr.
  Proof. intros a a' H i j Hi Hj; unfold Mat.mtr; apply H; assumption. Qed.
  Global Instance mvec_proper r c : Proper (meq r c ==> veq c ==> veq r) (mvec c).
  Proof. intros a a' H v v' K i Hi; unfold Mat.mvec; apply rsum_ext; intros k Hk; rewrite H, K by assumption; reflexivity. Qed.
  Global Instance vadd_proper n : Proper (veq n ==> veq n ==> veq n) vadd.
  Proof. intros a a' H b b' K i Hi; unfold Mat.vadd; rewrite H, K by assumption; reflexivity. Qed.
  Global Instance vopp_proper n : Proper (veq n ==> veq n) vopp.
  Proof. intros a a' H i Hi; unfold Mat.vopp; rewrite H by assumption; reflexivity. Qed.

  (** Entries. *)
  Lemma mmul_assoc_entry m n a b c i j : mmul n (mmul m a b) c i j = mmul m a (mmul n b c) i j.
  Proof.
    unfold Mat.mmul.
    rewrite (rsum_ext F O n (fun k => rmul O (rsum m (fun l => rmul O (a i l) (b l k))) (c k j)) (fun k => rsum m (fun l => rmul O (a i l) (rmul O (b l k) (c k j))))).
    2: { intros k _; rewrite <- (rsum_mul_r F O RT); apply rsum_ext; intros l _; ring. }
    rewrite (rsum_swap F O RT); apply rsum_ext; intros l _; apply (rsum_mul_l F O RT).
  Qed.
  Lemma mmul_assoc r c m n a b d : meq r c (mmul n (mmul m a b) d) (mmul m a (mmul n b d)).
  Proof. intros i j _ _; apply mmul_assoc_entry. Qed.
  Lemma mmul_add_l r c m a b d : meq r c (mmul m (madd a b) d) (madd (mmul m a d) (mmul m b d)).
  Proof. intros i j _ _; unfold Mat.mmul, Mat.madd; rewrite <- (rsum_add F O RT); apply rsum_ext; intros k _; ring. Qed.
  Lemma mmul_add_r r c m a b d : meq r c (mmul m a (madd b d)) (madd (mmul m a b) (mmul m a d)).
  Proof. intros i j _ _; unfold Mat.mmul, Mat.madd; rewrite <- (rsum_add F O RT); apply rsum_ext; intros k _; ring. Qed.
  Lemma mmul_sub_l r c m a b d : meq r c (mmul m (msub a b) d) (msub (mmul m a d) (mmul m b d)).
  Proof. intros i j _ _; unfold Mat.mmul, Mat.msub; rewrite <- (rsum_sub F O RT); apply rsum_ext; intros k _; ring. Qed.
  Lemma mmul_sub_r r c m a b d : meq r c (mmul m a (msub b d)) (msub (mmul m a b) (mmul m a d)).
  Proof. intros i j _ _; unfold Mat.mmul, Mat.msub; rewrite <- (rsum_sub F O RT); apply rsum_ext; intros k _; ring. Qed.
  Lemma mmul_opp_l r c m a b : meq r c (mmul m (mopp a) b) (mopp (mmul m a b)).
  Proof. intros i j _ _; unfold Mat.mmul, Mat.mopp; rewrite <- (rsum_opp F O RT); apply rsum_ext; intros k _; ring. Qed.
  Lemma mmul_opp_r r c m a b : meq r c (mmul m a (mopp b)) (mopp (mmul m a b)).
  Proof. intros i j _ _; unfold Mat.mmul, Mat.mopp; rewrite <- (rsum_opp F O RT); apply rsum_ext; intros k _; ring. Qed.
  Lemma mmul_id_l r c a : meq r c (mmul r mid a) a.
  Proof.
    intros i j Hi _; unfold Mat.mmul, Mat.mid; rewrite (rsum_single F O RT r i); [rewrite Nat.eqb_refl; ring|assumption|].
    intros k _ N; destruct (Nat.eqb_spec i k); [congruence|ring].
  Qed.
  Lemma mmul_id_r r c a : meq r c (mmul c a mid) a.
  Proof.
    intros i j _ Hj; unfold Mat.mmul, Mat.mid; rewrite (rsum_single F O RT c j); [rewrite Nat.eqb_refl; ring|assumption|].
    intros k _ N; destruct (Nat.eqb_spec k j); [congruence|ring].
  Qed.
  Lemma mmul_zero_l r c m a : meq r c (mmul m (mzero F O) a) (mzero F O).
  Proof. intros i j _ _; unfold Mat.mmul, Mat.mzero; apply (rsum_all_zero F O RT); intros; ring. Qed.
  Lemma mmul_zero_r r c m a : meq r c (mmul m a (mzero F O)) (mzero F O).
  Proof. intros i j _ _; unfold Mat.mmul, Mat.mzero; apply (rsum_all_zero F O RT); intros; ring. Qed.
  Lemma mtr_mmul r c m a b : meq r c (mtr (mmul m a b)) (mmul m (mtr b) (mtr a)).
  Proof. intros i j _ _; unfold Mat.mtr, Mat.mmul; apply rsum_ext; intros; ring. Qed.
  Lemma mtr_mtr r c a : meq r c (mtr (mtr a)) a.
  Proof. intros i j _ _; reflexivity. Qed.
  Lemma mtr_add r c a b : meq r c (mtr (madd a b)) (madd (mtr a) (mtr b)).
  Proof. intros i j _ _; reflexivity. Qed.
  Lemma mtr_id n : meq n n (mtr mid) mid.
  Proof. intros i j _ _; unfold Mat.mtr, Mat.mid; rewrite Nat.eqb_sym; reflexivity. Qed.

  (** Vectors are matrices of one column. *)
  Lemma mvec_mmul n m a b v : veq n (mvec m (mmul m a b) v) (mvec m a (mvec m b v)).
  Proof. intros i _; apply (mmul_assoc_entry m m a b (col F v) i 0). Qed.
  Lemma mvec_mmul' n m l a b v : veq n (mvec l (mmul m a b) v) (mvec m a (mvec l b v)).
  Proof. intros i _; apply (mmul_assoc_entry m l a b (col F v) i 0). Qed.
  Lemma mvec_add_l n m a b v : veq n (mvec m (madd a b) v) (vadd (mvec m a v) (mvec m b v)).
  Proof. intros i _; unfold Mat.mvec, Mat.madd, Mat.vadd; rewrite <- (rsum_add F O RT); apply rsum_ext; intros k _; ring. Qed.
  Lemma mvec_add_r n m a v w : veq n (mvec m a (vadd v w)) (vadd (mvec m a v) (mvec m a w)).
  Proof. intros i _; unfold Mat.mvec, Mat.vadd; rewrite <- (rsum_add F O RT); apply rsum_ext; intros k _; ring. Qed.
  Lemma mvec_opp_l n m a v : veq n (mvec m (mopp a) v) (vopp (mvec m a v)).
  Proof. intros i _; unfold Mat.mvec, Mat.mopp, Mat.vopp; rewrite <- (rsum_opp F O RT); apply rsum_ext; intros k _; ring. Qed.
  Lemma mvec_opp_r n m a v : veq n (mvec m a (vopp v)) (vopp (mvec m a v)).
  Proof. intros i _; unfold Mat.mvec, Mat.vopp; rewrite <- (rsum_opp F O RT); apply rsum_ext; intros k _; ring. Qed.
  Lemma mvec_id n v : veq n (mvec n mid v) v.
  Proof. intros i Hi; exact (mmul_id_l n 1 (col F v) i 0 Hi Nat.lt_0_1). Qed.
  Lemma mvec_zero_l n m v : veq n (mvec m (mzero F O) v) (vzero F O).
  Proof. intros i _; unfold Mat.mvec, Mat.mzero, Mat.vzero; apply (rsum_all_zero F O RT); intros; ring. Qed.
  Lemma mvec_zero_r n m a : veq n (mvec m a (vzero F O)) (vzero F O).
  Proof. intros i _; unfold Mat.mvec, Mat.vzero; apply (rsum_all_zero F O RT); intros; ring. Qed.
End Algebra.
