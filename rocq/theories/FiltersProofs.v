(** Filters: the recursion of the Kalman filter gives the covariances of the errors of
    the best linear predictions. *)
From Verif Require Import Base Semantics Nd NdProofs SimSpec Sim SimProofs3 Mat MatProofs MomentsSpec Moments MomentsProofs FiltersSpec Filters.
From Coq Require Import Ring.

Declare Scope F_scope.
Delimit Scope F_scope with F.
Section Projection.
  Variable F : Type.
  Variable O : rops F.
  Hypothesis RT : is_ring O.
  Let RT' : ring_theory (r0 O) (r1 O) (radd O) (rmul O) (rsub O) (ropp O) eq := RT.
  Add Ring FilRing : RT'.
  Notation rsum := (rsum F O).

  Variable R : randoms F.
  Hypothesis LR : lawful F O R.
  Notation cv := (covariance R).
  Notation "a + b" := (radd O a b) : F_scope.
  Notation "a - b" := (rsub O a b) : F_scope.
  Notation "a * b" := (rmul O a b) : F_scope.

  Lemma cv_error z zh w : cv (error F O R z zh) w = (cv z w - cv zh w)%F.
  Proof. unfold error; rewrite (cov_plus F O R LR), (cov_scale F O R LR); ring. Qed.
  Lemma cv_sym a b : cv a b = cv b a. Proof. apply (cov_sym F O R LR). Qed.
  Lemma cv_error_r z zh w : cv w (error F O R z zh) = (cv w z - cv w zh)%F.
  Proof. rewrite cv_sym, cv_error, (cv_sym z), (cv_sym zh); reflexivity. Qed.

  Variable p : nat.
  Variable y : nat -> nat -> rv R.
  Notation past := (from_past F R p y).

  Lemma past_orth t a z : (forall s l, s < t -> l < p -> cv a (y s l) = r0 O) -> past t z -> cv a z = r0 O.
  Proof.
    intros H Hz; induction Hz as [|s l Hs Hl|u v _ IHu _ IHv|c u _ IHu].
    - rewrite cv_sym; apply (cov_zero F O R LR).
    - apply H; assumption.
    - rewrite (cv_plus_r F O R LR), IHu, IHv; ring.
    - rewrite cv_sym, (cov_scale F O R LR), cv_sym, IHu; ring.
  Qed.
  Lemma past_mono t t' z : t <= t' -> past t z -> past t' z.
  Proof. intros Ht Hz; induction Hz; [constructor|constructor; [lia|assumption]|constructor; assumption|constructor; assumption]. Qed.
  Lemma past_comb t n a z : (forall i, i < n -> past t (z i)) -> past t (comb R n a z).
  Proof. induction n as [|n IH]; intros H; cbn; [constructor|]; apply past_plus; [apply IH; intros; apply H; lia|apply past_scale, H; lia]. Qed.

  (** Two best predictions of the same variables have errors with the same covariances. *)
  Lemma best_unique t z zh zh' w wh wh' : best F O R p y t z zh -> best F O R p y t z zh' -> best F O R p y t w wh -> best F O R p y t w wh' ->
    cv (error F O R z zh) (error F O R w wh) = cv (error F O R z zh') (error F O R w wh').
  Proof.
    intros (Pz & Oz) (Pz' & Oz') (Pw & Ow) (Pw' & Ow').
    pose proof (past_orth t _ wh Oz Pw) as A1; pose proof (past_orth t _ wh' Oz' Pw') as A2.
    pose proof (past_orth t _ zh Ow Pz) as B1; pose proof (past_orth t _ zh' Ow Pz') as B2.
    rewrite cv_error_r, A1, (cv_error_r w wh'), A2.
    rewrite cv_sym in B1, B2; rewrite (cv_error_r w) in B1, B2; rewrite cv_error in A1.
    rewrite !cv_error.
    pose proof (past_orth t _ zh Ow Pz) as C1; pose proof (past_orth t _ zh' Ow Pz') as C2; rewrite cv_error in C1, C2.
    pose proof (past_orth t _ wh Oz Pw) as D1; pose proof (past_orth t _ wh Oz' Pw) as D2; rewrite cv_error in D1, D2.
    assert (E1 : cv zh w = cv wh zh) by (replace (cv zh w) with ((cv w zh - cv wh zh) + cv wh zh)%F; [rewrite C1; ring|rewrite (cv_sym zh w); ring]).
    assert (E2 : cv zh' w = cv wh zh') by (replace (cv zh' w) with ((cv w zh' - cv wh zh') + cv wh zh')%F; [rewrite C2; ring|rewrite (cv_sym zh' w); ring]).
    assert (E3 : cv zh wh = cv zh' wh).
    { replace (cv zh wh) with (cv z wh - (cv z wh - cv zh wh))%F by ring; rewrite D1.
      replace (cv zh' wh) with (cv z wh - (cv z wh - cv zh' wh))%F by ring; rewrite D2; reflexivity. }
    rewrite E1, E2, (cv_sym wh zh), (cv_sym wh zh'), E3; reflexivity.
  Qed.
End Projection.

Section Recursion.
  Variable F : Type.
  Variable O : rops F.
  Hypothesis RT : is_ring O.
  Let RT' : ring_theory (r0 O) (r1 O) (radd O) (rmul O) (rsub O) (ropp O) eq := RT.
  Add Ring FilRing2 : RT'.
  Notation rsum := (rsum F O).
  Notation meq := (meq F).
  Notation mmul := (mmul F O).
  Variable R : randoms F.
  Hypothesis LR : lawful F O R.
  Notation cv := (covariance R).
  Notation "a + b" := (radd O a b) : F_scope.
  Notation "a - b" := (rsub O a b) : F_scope.
  Notation "a * b" := (rmul O a b) : F_scope.

  Variable n : nat.
  Variable T P0 Q : mat F.
  Variable x e : nat -> nat -> rv R.
  Hypothesis HS : state_space F O R n T P0 Q x e.
  Variable locs : list nat.
  Hypothesis HL : forall i, In i locs -> i < n.
  Notation p := (List.length locs).
  Notation loc l := (nth l locs 0).
  Definition obs_of (t l : nat) : rv R := x t (loc l).
  Notation y := obs_of.
  Notation past := (from_past F R p y).
  Notation err xh t i := (error F O R (x t i) (xh i)).

  Lemma loc_lt l : l < p -> loc l < n. Proof. intros H; apply HL, nth_In, H. Qed.

  Lemma state_noise t : forall t' i j, t <= t' -> i < n -> j < n -> cv (x t i) (e t' j) = r0 O.
  Proof.
    induction t as [|t IH]; intros t' i j Ht Hi Hj; [apply (s_apart _ _ _ _ _ _ _ _ _ HS); assumption|].
    rewrite (s_next _ _ _ _ _ _ _ _ _ HS t i Hi), (cov_plus F O R LR), (cv_comb F O R LR).
    rewrite (s_white _ _ _ _ _ _ _ _ _ HS) by (assumption || lia).
    rewrite (rsum_all_zero F O RT); [ring|]. intros k Hk; rewrite IH by (assumption || lia); ring.
  Qed.
  Lemma noise_past t t' z j : t <= t' -> j < n -> past (S t) z -> cv (e t' j) z = r0 O.
  Proof.
    intros Ht Hj; apply (past_orth F O RT R LR); intros s l Hs Hl; rewrite (cv_sym F O R LR).
    apply state_noise; [lia|apply loc_lt, Hl|exact Hj].
  Qed.

  (** [xh] are the best predictions of the states of period [t], [P] the covariances of
      their errors. *)
  Definition predicts (t : nat) (P : mat F) (xh : nat -> rv R) : Prop :=
    (forall i, i < n -> best F O R p y t (x t i) (xh i)) /\
    forall i j, i < n -> j < n -> cv (err xh t i) (err xh t j) = P i j.

  Lemma predicts_sym t P xh i j : predicts t P xh -> i < n -> j < n -> P i j = P j i.
  Proof. intros (_ & H) Hi Hj; rewrite <- !H by assumption; apply (cv_sym F O R LR). Qed.
  Lemma predicts_first : predicts 0 P0 (fun _ => rv_zero R).
  Proof.
    split; [intros i Hi; split; [constructor|intros s l Hs; lia]|]; intros i j Hi Hj.
    rewrite (cv_error F O RT R LR), !(cv_error_r F O RT R LR), (s_first _ _ _ _ _ _ _ _ _ HS) by assumption.
    rewrite !(cov_zero F O R LR), (cv_sym F O R LR (x 0 i)), (cov_zero F O R LR); ring.
  Qed.
  Lemma predicts_eq t P P' xh : predicts t P xh -> meq n n P P' -> predicts t P' xh.
  Proof. intros (A & B) E; split; [exact A|]; intros i j Hi Hj; rewrite <- E by assumption; apply B; assumption. Qed.

  Section Step.
    Variable t : nat.
    Variable P : mat F.
    Variable xh : nat -> rv R.
    Hypothesis HP : predicts t P xh.
    Variable G : mat F.
    Hypothesis HG : forall i j, i < p -> j < p -> rsum p (fun k => G i k * P (loc k) (loc j))%F = if i =? j then r1 O else r0 O.
    Let K (i m : nat) : F := rsum p (fun l => P i (loc l) * G l m)%F.
    (** The errors that are left when the observations of [t] are known. *)
    Let corrected (i : nat) : rv R := rv_plus R (xh i) (comb R p (K i) (fun l => err xh t (loc l))).
    Let Ptt (i j : nat) : F := (P i j - rsum p (fun m => K i m * P (loc m) j))%F.
    Let xh' (i : nat) : rv R := comb R n (T i) corrected.

    Lemma err_err i j : i < n -> j < n -> cv (err xh t i) (err xh t j) = P i j.
    Proof. apply HP. Qed.
    Lemma err_past i z : i < n -> past t z -> cv (err xh t i) z = r0 O.
    Proof. intros Hi Hz; apply (past_orth F O RT R LR p y t); [|exact Hz]; apply (proj1 HP i Hi). Qed.
    Lemma err_x i j : i < n -> j < n -> cv (err xh t i) (x t j) = P i j.
    Proof.
      intros Hi Hj; rewrite <- err_err, (cv_error_r F O RT R LR), (err_past i (xh j) Hi) by (assumption || apply (proj1 HP j Hj)); ring.
    Qed.
    Lemma KF i j : i < n -> j < p -> rsum p (fun m => K i m * P (loc m) (loc j))%F = P i (loc j).
    Proof.
      intros Hi Hj; unfold K.
      rewrite (rsum_ext F O _ _ (fun m => rsum p (fun l => P i (loc l) * (G l m * P (loc m) (loc j)))%F)).
      2:{ intros m Hm; rewrite <- (rsum_mul_r F O RT); apply (rsum_ext F O); intros l Hl; ring. }
      rewrite (rsum_swap F O RT).
      rewrite (rsum_ext F O _ _ (fun l => P i (loc l) * (if l =? j then r1 O else r0 O))%F).
      2:{ intros l Hl; rewrite (rsum_mul_l F O RT), HG by assumption; reflexivity. }
      rewrite (rsum_single F O RT p j _ Hj); [rewrite Nat.eqb_refl; ring|]; intros k Hk Hkj; destruct (Nat.eqb_spec k j); [contradiction|ring].
    Qed.
    Lemma corr_cov i z : cv (error F O R (x t i) (corrected i)) z =
      (cv (err xh t i) z - rsum p (fun m => K i m * cv (err xh t (loc m)) z))%F.
    Proof. rewrite !(cv_error F O RT R LR); unfold corrected; rewrite (cov_plus F O R LR), (cv_comb F O R LR); ring. Qed.
    Lemma corr_past i s l : i < n -> s < S t -> l < p -> cv (error F O R (x t i) (corrected i)) (y s l) = r0 O.
    Proof.
      intros Hi Hs Hl; rewrite corr_cov; destruct (Nat.eq_dec s t) as [->|Hne].
      - unfold y; rewrite err_x by (exact Hi || apply loc_lt, Hl).
        rewrite (rsum_ext F O _ _ (fun m => K i m * P (loc m) (loc l))%F), KF; [ring|exact Hi|exact Hl|].
        intros m Hm; rewrite err_x; [reflexivity|apply loc_lt, Hm|apply loc_lt, Hl].
      - rewrite err_past by (exact Hi || (apply past_one; [lia|exact Hl])).
        rewrite (rsum_all_zero F O RT); [ring|]; intros m Hm; rewrite err_past by (apply loc_lt, Hm || (apply past_one; [lia|exact Hl])); ring.
    Qed.
    Lemma err_span i : i < p -> past (S t) (err xh t (loc i)).
    Proof.
      intros Hi; unfold error; apply past_plus; [apply (past_one F R p y (S t) t i); [lia|exact Hi]|].
      apply past_scale, (past_mono F R p y t); [lia|]. apply (proj1 HP (loc i) (loc_lt i Hi)).
    Qed.
    Lemma corr_span i : i < n -> past (S t) (corrected i).
    Proof.
      intros Hi; unfold corrected; apply past_plus; [apply (past_mono F R p y t); [lia|]; apply (proj1 HP i Hi)|].
      apply past_comb; intros l Hl; apply err_span, Hl.
    Qed.
    Lemma corr_corr i j : i < n -> j < n -> cv (error F O R (x t i) (corrected i)) (error F O R (x t j) (corrected j)) = Ptt i j.
    Proof.
      intros Hi Hj; rewrite (cv_error_r F O RT R LR).
      rewrite (past_orth F O RT R LR p y (S t) _ (corrected j)) by ((intros; apply corr_past; assumption) || apply corr_span, Hj).
      rewrite corr_cov, err_x by assumption; unfold Ptt.
      rewrite (rsum_ext F O p (fun m => K i m * cv (err xh t (loc m)) (x t j))%F (fun m => K i m * P (loc m) j)%F); [ring|].
      intros m Hm; rewrite err_x by (apply loc_lt, Hm || exact Hj); reflexivity.
    Qed.
    Lemma next_cov i z : i < n -> cv (error F O R (x (S t) i) (xh' i)) z =
      (rsum n (fun a => T i a * cv (error F O R (x t a) (corrected a)) z) + cv (e t i) z)%F.
    Proof.
      intros Hi; rewrite (cv_error F O RT R LR), (s_next _ _ _ _ _ _ _ _ _ HS t i Hi), (cov_plus F O R LR).
      unfold xh'; rewrite !(cv_comb F O R LR).
      rewrite (rsum_ext F O n (fun a => T i a * cv (error F O R (x t a) (corrected a)) z)%F (fun a => T i a * cv (x t a) z - T i a * cv (corrected a) z)%F).
      2:{ intros a Ha; rewrite (cv_error F O RT R LR); ring. }
      rewrite (rsum_sub F O RT); ring.
    Qed.
    Lemma step_predicts : predicts (S t)
      (fun i j => rsum n (fun a => T i a * rsum n (fun b => Ptt a b * T j b)) + Q i j)%F xh'.
    Proof.
      assert (Orth : forall i s l, i < n -> s < S t -> l < p -> cv (error F O R (x (S t) i) (xh' i)) (y s l) = r0 O).
      { intros i s l Hi Hs Hl; rewrite next_cov by exact Hi.
        rewrite (noise_past t t) by (exact Hi || lia || (apply past_one; assumption)).
        rewrite (rsum_all_zero F O RT); [ring|]; intros a Ha; rewrite corr_past by assumption; ring. }
      assert (Span : forall i, i < n -> past (S t) (xh' i)) by (intros i Hi; apply past_comb; intros a Ha; apply corr_span, Ha).
      split; [intros i Hi; split; [apply Span, Hi|intros; apply Orth; assumption]|].
      intros i j Hi Hj; rewrite next_cov by exact Hi.
      assert (Enoise : cv (e t i) (error F O R (x (S t) j) (xh' j)) = Q i j).
      { rewrite (cv_sym F O R LR), next_cov by exact Hj; rewrite (s_noise _ _ _ _ _ _ _ _ _ HS) by assumption.
        rewrite (rsum_all_zero F O RT).
        - rewrite <- (s_noise _ _ _ _ _ _ _ _ _ HS t i j), <- (s_noise _ _ _ _ _ _ _ _ _ HS t j i), (cv_sym F O R LR (e t j)) by assumption; ring.
        - intros a Ha; rewrite (cv_error F O RT R LR), state_noise, (cv_sym F O R LR (corrected a)), (noise_past t t) by (assumption || lia || apply corr_span, Ha); ring. }
      rewrite Enoise; f_equal; apply (rsum_ext F O); intros a Ha; f_equal.
      rewrite (cv_sym F O R LR), next_cov by exact Hj.
      replace (cv (e t j) (error F O R (x t a) (corrected a))) with (r0 O).
      - replace (rsum n (fun b => Ptt a b * T j b)%F) with (rsum n (fun b => T j b * cv (error F O R (x t b) (corrected b)) (error F O R (x t a) (corrected a)))%F); [ring|].
        apply (rsum_ext F O); intros b Hb; rewrite (cv_sym F O R LR), corr_corr by assumption; ring.
      - symmetry; rewrite (cv_sym F O R LR), (cv_error F O RT R LR), state_noise, (cv_sym F O R LR (corrected a)), (noise_past t t) by (assumption || lia || apply corr_span, Ha); ring.
    Qed.
  End Step.
End Recursion.
