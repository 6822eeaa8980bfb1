(** Scalars for concrete cases: the integers and the rational numbers. *)
From Verif Require Import Base Nd SimSpec.
From Coq Require Import ZArith ZArithRing InitialRing QArith Qcanon.

Definition ZO : rops Z := ROps 0%Z 1%Z Z.add Z.mul Z.sub Z.opp Z.div.
Lemma Z_ring : is_ring ZO.
Proof. exact Zth. Qed.

Definition QO : rops Qc := ROps (Q2Qc 0) (Q2Qc 1) Qcplus Qcmult Qcminus Qcopp Qcdiv.
Lemma Q_field : is_field QO Qcinv.
Proof. exact Qcft. Qed.
Lemma Q_ring : is_ring QO.
Proof. exact (F_R Qcft). Qed.
Lemma Q_two : twice_one QO <> r0 QO.
Proof. intros E; apply (f_equal this) in E; vm_compute in E; discriminate E. Qed.
(** Equality of rationals can be computed. *)
Definition same (x y : Qc) : bool := Qeq_bool x y.
Lemma same_eq x y : same x y = true -> x = y.
Proof. intros H; apply Qc_is_canon, Qeq_bool_iff, H. Qed.
Lemma same_neq x y : same x y = false -> x <> y.
Proof. intros H ->; unfold same in H; assert (E : Qeq_bool y y = true) by (apply Qeq_bool_iff; reflexivity); congruence. Qed.

Lemma Q_ordered : is_ordered QO Qcle.
Proof.
  constructor; cbn.
  - intros x y; apply Qcle_antisym.
  - intros x y z; apply Qcle_trans.
  - intros x y; destruct (Qclt_le_dec x y) as [H|H]; [left; apply Qclt_le_weak, H|right; exact H].
  - intros x y z H; apply Qcplus_le_compat; [exact H|apply Qcle_refl].
  - intros x y Hx Hy; rewrite <- (Qcmult_0_l y) at 1; apply Qcmult_le_compat_r; assumption.
Qed.
