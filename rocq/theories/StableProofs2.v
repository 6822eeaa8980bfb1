(** Quasi-triangular systems: the part with roots outside the unit circle has no bounded
    solution but zero, the part with roots inside only bounded ones. *)
From Verif Require Import Base Nd NdProofs Mat MatProofs IndexingSpec SimSpec OrderProofs FirstOrder FirstOrderSpec StableSpec StableProofs.
From Coq Require Import Ring Field.

Section Blocks.
  Variable F : Type.
  Variable O : rops F.
  Variable finv : F -> F.
  Variable FT : is_field O finv.
  Variable le : F -> F -> Prop.
  Hypothesis OR : is_ordered O le.
  Hypothesis dec : forall x y : F, x = y \/ x <> y.
  Let FT' : field_theory (r0 O) (r1 O) (radd O) (rmul O) (rsub O) (ropp O) (rdiv O) finv eq := FT.
  Add Field FfieldBl : FT'.
  Let RT : is_ring O := F_R FT'.
  Notation rsum := (Nd.rsum F O).
  Notation "0" := (r0 O). Notation "1" := (r1 O).
  Infix "+" := (radd O). Infix "*" := (rmul O). Infix "-" := (rsub O). Infix "/" := (rdiv O).
  Notation bnd := (bnd F O le).
  Notation bnd_ext := (bnd_ext F O le).
  Notation bnd_const := (bnd_const F O le OR).
  Notation bnd_add := (bnd_add F O finv FT le OR).
  Notation bnd_scale := (bnd_scale F O finv FT le OR).
  Notation bnd_sum := (bnd_sum F O finv FT le OR).
  Notation bnd_shift := (bnd_shift F O le).
  Local Notation SS := Datatypes.S.

  Lemma head_tail n s (f : nat -> F) : rsum n f = rsum n (fun l => if s <=? l then 0 else f l) + rsum n (fun l => if s <=? l then f l else 0).
  Proof using FT. rewrite <- (rsum_add F O RT); apply rsum_ext; intros l _; destruct (s <=? l); ring. Qed.
  Lemma head_one n j (f : nat -> F) : j < n -> (forall l, l < j -> f l = 0) -> rsum n f = f j + rsum n (fun l => if SS j <=? l then f l else 0).
  Proof using FT.
    intros Hj H; rewrite (head_tail n (SS j)); f_equal; rewrite (rsum_single F O RT n j).
    - rewrite (proj2 (Nat.leb_gt (SS j) j)) by lia; reflexivity.
    - exact Hj.
    - intros i Hi Ne; destruct (Nat.leb_spec (SS j) i); [reflexivity|apply H; lia].
  Qed.
  Lemma head_two n p (f : nat -> F) : SS p < n -> (forall l, l < p -> f l = 0) -> rsum n f = f p + f (SS p) + rsum n (fun l => if SS (SS p) <=? l then f l else 0).
  Proof using FT.
    intros Hp H; rewrite (head_one n p f) by (assumption || lia).
    transitivity (f p + (f (SS p) + rsum n (fun l => if SS (SS p) <=? l then f l else 0))); [f_equal|ring].
    rewrite (head_one n (SS p)).
    - rewrite (proj2 (Nat.leb_le (SS p) (SS p))) by lia; f_equal; apply rsum_ext; intros l _.
      destruct (Nat.leb_spec (SS (SS p)) l) as [G|G]; [rewrite (proj2 (Nat.leb_le (SS p) l)) by lia; reflexivity|reflexivity].
    - exact Hp.
    - intros l Hl; rewrite (proj2 (Nat.leb_gt (SS p) l)) by lia; reflexivity.
  Qed.
  Lemma tail_zero n s (f : nat -> F) : (forall l, s <= l < n -> f l = 0) -> rsum n (fun l => if s <=? l then f l else 0) = 0.
  Proof using FT. intros H; apply (rsum_all_zero F O RT); intros l Hl; destruct (Nat.leb_spec s l); [apply H; lia|reflexivity]. Qed.
  Lemma tail_bnd n s (f : nat -> nat -> F) : (forall l, s <= l < n -> bnd (fun t => f t l)) -> bnd (fun t => rsum n (fun l => if s <=? l then f t l else 0)).
  Proof using FT OR.
    intros H; apply (bnd_sum n (fun t l => if s <=? l then f t l else 0)); intros l Hl; destruct (Nat.leb_spec s l); [apply H; lia|apply bnd_const].
  Qed.

  Variable N : nat.
  Variables A B : nat -> nat -> F.
  Variable q : schur F.
  Hypothesis Sf : schur_form F O le N A B q.
  Hypothesis Fq : forall j re im, j < N -> nth j (q_eig q) Nan = Fin re im -> q_T q j j <> 0.
  Let S := q_S q.
  Let T := q_T q.
  Let eig i := nth i (q_eig q) Nan.

  (** The row of a block of one row, and the rows of a block of two. *)
  Lemma clean_before p : SS p < N -> S (SS p) p <> 0 -> forall i, p = SS i -> S p i = 0.
  Proof using FT OR Sf dec.
    intros Hp H i ->; destruct (dec (S (SS i) i) 0) as [E|E]; [exact E|exfalso].
    destruct (f_two _ _ _ _ _ _ _ Sf (SS i) Hp H) as (re & im & E1 & _ & Him & _).
    destruct (f_two _ _ _ _ _ _ _ Sf i ltac:(lia) E) as (re' & im' & _ & E2 & Him' & _).
    rewrite E1 in E2; injection E2 as _ ->; apply Him.
    apply (ge0 F O finv FT le OR); replace (0 - ropp O im') with (im' - 0) by ring; apply (sub0 F O finv FT le OR), (not_le_le F O le OR), Him'.
  Qed.
  Lemma below_T i l : i < N -> l < i -> T i l = 0.
  Proof using Sf. apply (f_T _ _ _ _ _ _ _ Sf). Qed.
  Lemma below_S i l : i < N -> (forall m, i = SS m -> S i m = 0) -> l < i -> S i l = 0.
  Proof using Sf.
    intros Hi H Hl; destruct (Nat.eq_dec i (SS l)) as [E|E]; [apply H, E|apply (f_S _ _ _ _ _ _ _ Sf); lia].
  Qed.
  Lemma far_S i l : i < N -> SS l < i -> S i l = 0.
  Proof using Sf. apply (f_S _ _ _ _ _ _ _ Sf). Qed.
  Lemma root_one j : j < N -> (SS j < N -> S (SS j) j = 0) -> (forall i, j = SS i -> S j i = 0) -> root_of F O (S j j) (T j j) (eig j).
  Proof using Sf. apply (f_one _ _ _ _ _ _ _ Sf). Qed.
  Lemma roots_two p : SS p < N -> S (SS p) p <> 0 -> exists re im, eig p = Fin re im /\ eig (SS p) = Fin re (ropp O im) /\ im <> 0 /\
    T p p <> 0 /\ T (SS p) (SS p) <> 0 /\
    (re + re) * (T p p * T (SS p) (SS p)) + S (SS p) p * T p (SS p) = S p p * T (SS p) (SS p) + S (SS p) (SS p) * T p p /\
    (re * re + im * im) * (T p p * T (SS p) (SS p)) + S p (SS p) * S (SS p) p = S p p * S (SS p) (SS p).
  Proof using Sf Fq OR.
    intros Hp H; destruct (f_two _ _ _ _ _ _ _ Sf p Hp H) as (re & im & E1 & E2 & Him & H1 & H2); exists re, im.
    split; [exact E1|]; split; [exact E2|]; split; [intros ->; apply Him, (le_refl F O le OR)|].
    split; [apply (Fq p re im); [lia|exact E1]|]; split; [apply (Fq (SS p) re (ropp O im)); [lia|exact E2]|]; split; assumption.
  Qed.

  (** Going up over the blocks from row [s] to row [m]. *)
  Definition clean (s : nat) : Prop := s < N -> forall i, s = SS i -> S s i = 0.
  Lemma blocks_up m (P : nat -> Prop) s : m <= s <= N -> clean m -> clean s -> P s ->
    (forall j, m <= j < s -> clean j -> clean (SS j) -> P (SS j) -> P j) ->
    (forall p, m <= p -> SS p < s -> clean p -> clean (SS (SS p)) -> S (SS p) p <> 0 -> P (SS (SS p)) -> P p) -> P m.
  Proof using FT OR Sf dec.
    intros Hs Cm; revert s Hs; induction s as [s IH] using (well_founded_induction lt_wf); intros Hs Cs Ps H1 H2.
    destruct (Nat.eq_dec s m) as [->|Ne]; [exact Ps|]; destruct s as [|j]; [lia|].
    destruct (Nat.eq_dec j m) as [->|Nj]; [apply (H1 m); [lia|exact Cm|exact Cs|exact Ps]|].
    destruct j as [|p]; [lia|].
    destruct (dec (S (SS p) p) 0) as [E|E].
    - assert (Cj : clean (SS p)) by (intros _ i Ei; injection Ei as <-; exact E).
      apply (IH (SS p)); [lia|lia|exact Cj|apply H1; [lia|exact Cj|exact Cs|exact Ps]| |].
      + intros j Hj; apply H1; lia.
      + intros p' Hp Hl; apply H2; lia.
    - assert (Cp : clean p) by (intros _; apply clean_before; [lia|exact E]).
      apply (IH p); [lia|lia|exact Cp|apply H2; [lia|lia|exact Cp|exact Cs|exact E|exact Ps]| |].
      + intros j Hj; apply H1; lia.
      + intros p' Hp Hl; apply H2; lia.
  Qed.

  Section Unstable.
    Hypothesis AR : archimedean F O le.
    Variable nb : nat.
    Hypothesis Hnb : nb <= N.
    Hypothesis Cnb : clean nb.
    Hypothesis Out : forall i, nb <= i < N -> outside_circle F O le (eig i).
    Variable w : nat -> nat -> F.
    Hypothesis Hw : forall t i, nb <= i < N -> rsum N (fun l => T i l * w (SS t) l) = rsum N (fun l => S i l * w t l).
    Hypothesis Bw : forall i, nb <= i < N -> bnd (fun t => w t i).

    Lemma unstable_zero : forall j, nb <= j < N -> forall t, w t j = 0.
    Proof using FT OR dec Sf Fq AR Hnb Cnb Out Hw Bw.
      apply (blocks_up nb (fun s => forall j, s <= j < N -> forall t, w t j = 0) N).
      - lia.
      - exact Cnb.
      - intros H; lia.
      - intros j Hj; lia.
      - intros j Hj Cj Cs P.
        assert (Z : forall t, w t j = 0).
        2: { intros l Hl t; destruct (Nat.eq_dec l j) as [->|]; [apply Z|apply P; lia]. }
        assert (R : forall t, T j j * w (SS t) j = S j j * w t j).
        { intros t; pose proof (Hw t j ltac:(lia)) as E.
          rewrite (head_one N j (fun l => T j l * w (SS t) l)), (head_one N j (fun l => S j l * w t l)), !tail_zero in E; try lia.
          - transitivity (T j j * w (SS t) j + 0); [ring|rewrite E; ring].
          - intros l Hl; rewrite P by lia; ring.
          - intros l Hl; rewrite P by lia; ring.
          - intros l Hl; rewrite below_S; [ring|lia|apply Cj; lia|exact Hl].
          - intros l Hl; rewrite below_T; [ring|lia|exact Hl]. }
        pose proof (root_one j ltac:(lia) (fun H => Cs H j eq_refl) (Cj ltac:(lia))) as Rt.
        pose proof (Out j ltac:(lia)) as Oj; destruct (eig j) as [re im| |] eqn:Ee; cbn in Rt, Oj; [| |contradiction].
        + destruct Rt as [-> Er]; pose proof (Fq j re 0 ltac:(lia) Ee) as Tn; fold T in Tn.
          assert (W : forall t, w (SS t) j = re * w t j).
          { intros t; transitivity ((T j j * w (SS t) j) / T j j); [field; exact Tn|]; rewrite R, <- Er; field; exact Tn. }
          destruct (Bw j ltac:(lia)) as [C HC].
          intros t; apply (sq_zero F O finv FT dec).
          apply (growth F O finv FT le OR dec AR (fun t => w t j * w t j) (re * re + 0 * 0) C); [|intros t'; apply (sq_nonneg F O finv FT le OR)|exact HC|exact Oj].
          intros t'; rewrite W; ring.
        + destruct Rt as [Er Sn]; intros t; apply (mul_zero F O finv FT (S j j)); [exact Sn|]; rewrite <- R; rewrite Er; ring.
      - intros p Hp Hl Cp Cs Sn P.
        assert (Z : forall t, w t p = 0 /\ w t (SS p) = 0).
        2: { intros l Hl' t; destruct (Nat.eq_dec l p) as [->|]; [apply Z|]; destruct (Nat.eq_dec l (SS p)) as [->|]; [apply Z|apply P; lia]. }
        assert (R1 : forall t, T p p * w (SS t) p + T p (SS p) * w (SS t) (SS p) = S p p * w t p + S p (SS p) * w t (SS p)).
        { intros t; pose proof (Hw t p ltac:(lia)) as E.
          rewrite (head_two N p (fun l => T p l * w (SS t) l)), (head_two N p (fun l => S p l * w t l)), !tail_zero in E; try lia.
          - match type of E with ?a + 0 = ?b + 0 => transitivity (a + 0); [ring|rewrite E; ring] end.
          - intros l Hl'; rewrite P by lia; ring.
          - intros l Hl'; rewrite P by lia; ring.
          - intros l Hl'; rewrite below_S; [ring|lia|apply Cp; lia|exact Hl'].
          - intros l Hl'; rewrite below_T; [ring|lia|exact Hl']. }
        assert (R2 : forall t, T (SS p) (SS p) * w (SS t) (SS p) = S (SS p) p * w t p + S (SS p) (SS p) * w t (SS p)).
        { intros t; pose proof (Hw t (SS p) ltac:(lia)) as E.
          rewrite (head_two N p (fun l => T (SS p) l * w (SS t) l)), (head_two N p (fun l => S (SS p) l * w t l)), !tail_zero in E; try lia.
          - rewrite (below_T (SS p) p) in E by lia.
            match type of E with 0 * ?z + ?a + 0 = ?b + 0 => transitivity (0 * z + a + 0); [ring|rewrite E; ring] end.
          - intros l Hl'; rewrite P by lia; ring.
          - intros l Hl'; rewrite P by lia; ring.
          - intros l Hl'; rewrite (far_S (SS p) l); [ring|lia|lia].
          - intros l Hl'; rewrite below_T; [ring|lia|lia]. }
        destruct (roots_two p ltac:(lia) Sn) as (re & im & E1 & E2 & Hi & T1 & T2 & Ht & Hd).
        set (d := re * re + im * im).
        assert (CH : forall t, w (SS (SS t)) (SS p) = (re + re) * w (SS t) (SS p) - d * w t (SS p)).
        { intros t; set (D := T p p * T (SS p) (SS p)) in *.
          assert (Dn : D <> 0) by (intros E; apply T2; apply (mul_zero F O finv FT (T p p)); [exact T1|exact E]).
          assert (M : D * (w (SS (SS t)) (SS p) - ((re + re) * w (SS t) (SS p) - d * w t (SS p))) = 0).
          { pose proof (R2 (SS t)) as A2; pose proof (R1 t) as A1; pose proof (R2 t) as A3.
            transitivity (T p p * (T (SS p) (SS p) * w (SS (SS t)) (SS p)) - ((re + re) * D) * w (SS t) (SS p) + (d * D) * w t (SS p)); [unfold D; ring|].
            rewrite A2.
            replace ((re + re) * D) with (S p p * T (SS p) (SS p) + S (SS p) (SS p) * T p p - S (SS p) p * T p (SS p)) by (rewrite <- Ht; ring).
            replace (d * D) with (S p p * S (SS p) (SS p) - S p (SS p) * S (SS p) p) by (unfold d; rewrite <- Hd; ring).
            transitivity (S (SS p) p * (T p p * w (SS t) p + T p (SS p) * w (SS t) (SS p)) - S p p * (T (SS p) (SS p) * w (SS t) (SS p)) + (S p p * S (SS p) (SS p) - S p (SS p) * S (SS p) p) * w t (SS p)); [ring|].
            rewrite A1, A3; ring. }
          apply (mul_zero F O finv FT D _ Dn) in M.
          transitivity (w (SS (SS t)) (SS p) - ((re + re) * w (SS t) (SS p) - d * w t (SS p)) + ((re + re) * w (SS t) (SS p) - d * w t (SS p))); [ring|rewrite M; ring]. }
        set (X := fun t => w (SS t) (SS p) - re * w t (SS p)); set (Y := fun t => im * w t (SS p)).
        assert (Bb : bnd (fun t => w t (SS p))) by (apply Bw; lia).
        assert (BX : bnd X).
        { apply (bnd_ext (fun t => w (SS t) (SS p) + ropp O re * w t (SS p))); [intros t; unfold X; ring|].
          apply bnd_add; [apply (bnd_shift _ Bb)|apply bnd_scale, Bb]. }
        assert (BY : bnd Y) by (apply bnd_scale, Bb).
        destruct BX as [C1 H1], BY as [C2 H2].
        assert (Od : ~ le d 1) by (pose proof (Out p ltac:(lia)) as Op; rewrite E1 in Op; exact Op).
        assert (Q0 : forall t, X t * X t + Y t * Y t = 0).
        { apply (growth F O finv FT le OR dec AR (fun t => X t * X t + Y t * Y t) d (C1 + C2)).
          - intros t; unfold X, Y; rewrite CH; unfold d; ring.
          - intros t; apply (add_nonneg F O finv FT le OR); apply (sq_nonneg F O finv FT le OR).
          - intros t; apply (add_mono F O finv FT le OR); auto.
          - exact Od. }
        assert (Zb : forall t, w t (SS p) = 0).
        { intros t; destruct (sum_sq_zero F O finv FT le OR dec _ _ (Q0 t)) as [_ Y0]; apply (mul_zero F O finv FT im _ Hi Y0). }
        intros t; split; [|apply Zb]; apply (mul_zero F O finv FT (S (SS p) p) _ Sn).
        pose proof (R2 t) as E; rewrite !Zb in E; transitivity (S (SS p) p * w t p + S (SS p) (SS p) * 0); [ring|rewrite <- E; ring].
    Qed.
  End Unstable.

  Section Stable.
    Variable nb : nat.
    Hypothesis Hnb : nb <= N.
    Hypothesis Cnb : clean nb.
    Hypothesis Ins : forall i, i < nb -> inside_circle F O le (eig i).
    Variables w c : nat -> nat -> F.
    Hypothesis Hw : forall t i, i < nb -> rsum nb (fun l => T i l * w (SS t) l) = rsum nb (fun l => S i l * w t l) + c t i.
    Hypothesis Bc : forall i, i < nb -> bnd (fun t => c t i).

    Lemma delta_nonneg re im : le 0 (re * re + im * im).
    Proof using FT OR. apply (add_nonneg F O finv FT le OR); apply (sq_nonneg F O finv FT le OR). Qed.
    Lemma stable_bounded : forall j, 0%nat <= j < nb -> bnd (fun t => w t j).
    Proof using FT OR dec Sf Fq Hnb Cnb Ins Hw Bc.
      apply (blocks_up 0 (fun s => forall j, s <= j < nb -> bnd (fun t => w t j)) nb).
      - lia.
      - intros _ i Ei; discriminate Ei.
      - exact Cnb.
      - intros j Hj; lia.
      - intros j Hj Cj Cs P.
        assert (Z : bnd (fun t => w t j)).
        2: { intros l Hl; destruct (Nat.eq_dec l j) as [->|]; [apply Z|apply P; lia]. }
        set (r := fun t => rsum nb (fun l => if SS j <=? l then S j l * w t l else 0) + c t j + ropp O 1 * rsum nb (fun l => if SS j <=? l then T j l * w (SS t) l else 0)).
        assert (Br : bnd r).
        { apply bnd_add; [apply bnd_add|apply bnd_scale].
          - apply (tail_bnd nb (SS j) (fun t l => S j l * w t l)); intros l Hl; apply bnd_scale, P, Hl.
          - apply Bc; lia.
          - apply (tail_bnd nb (SS j) (fun t l => T j l * w (SS t) l)); intros l Hl; apply bnd_scale, (bnd_shift (fun t => w t l)), P, Hl. }
        assert (R : forall t, T j j * w (SS t) j = S j j * w t j + r t).
        { intros t; pose proof (Hw t j ltac:(lia)) as E.
          rewrite (head_one nb j (fun l => T j l * w (SS t) l)), (head_one nb j (fun l => S j l * w t l)) in E; try lia.
          - unfold r; match type of E with ?a + ?x = ?b => transitivity (a + x - x); [ring|rewrite E; ring] end.
          - intros l Hl; rewrite below_S; [ring|lia|apply Cj; lia|exact Hl].
          - intros l Hl; rewrite below_T; [ring|lia|exact Hl]. }
        pose proof (root_one j ltac:(lia) (fun H => Cs H j eq_refl) (Cj ltac:(lia))) as Rt.
        pose proof (Ins j ltac:(lia)) as Oj; destruct (eig j) as [re im| |] eqn:Ee; cbn in Rt, Oj; [|contradiction|contradiction].
        destruct Rt as [-> Er]; pose proof (Fq j re 0 ltac:(lia) Ee) as Tn; fold T in Tn.
        refine (proj1 (shrink F O finv FT le OR dec (fun t => w t j) (fun _ => 0) (fun t => re * w t j) (fun _ => 0) (fun t => (1 / T j j) * r t) (fun _ => 0) (re * re + 0 * 0) Oj (delta_nonneg re 0) _ _ _ _ _)).
        + intros t; transitivity ((T j j * w (SS t) j) / T j j); [field; exact Tn|]; rewrite R, <- Er; field; exact Tn.
        + intros t; ring.
        + intros t; ring.
        + apply bnd_scale, Br.
        + apply bnd_const.
      - intros p _ Hl Cp Cs Sn P.
        assert (Z : bnd (fun t => w t p) /\ bnd (fun t => w t (SS p))).
        2: { destruct Z as [Za Zb]; intros l Hl'; destruct (Nat.eq_dec l p) as [->|]; [apply Za|]; destruct (Nat.eq_dec l (SS p)) as [->|]; [apply Zb|apply P; lia]. }
        set (rr := fun i t => rsum nb (fun l => if SS (SS p) <=? l then S i l * w t l else 0) + c t i + ropp O 1 * rsum nb (fun l => if SS (SS p) <=? l then T i l * w (SS t) l else 0)).
        assert (Br : forall i, i < nb -> bnd (rr i)).
        { intros i Hi; apply bnd_add; [apply bnd_add|apply bnd_scale].
          - apply (tail_bnd nb (SS (SS p)) (fun t l => S i l * w t l)); intros l Hl'; apply bnd_scale, P, Hl'.
          - apply Bc; lia.
          - apply (tail_bnd nb (SS (SS p)) (fun t l => T i l * w (SS t) l)); intros l Hl'; apply bnd_scale, (bnd_shift (fun t => w t l)), P, Hl'. }
        set (r1 := rr p); set (r2 := rr (SS p)).
        pose proof (Br p ltac:(lia)) as B1; pose proof (Br (SS p) ltac:(lia)) as B2; fold r1 in B1; fold r2 in B2.
        assert (R1 : forall t, T p p * w (SS t) p + T p (SS p) * w (SS t) (SS p) = S p p * w t p + S p (SS p) * w t (SS p) + r1 t).
        { intros t; pose proof (Hw t p ltac:(lia)) as E.
          rewrite (head_two nb p (fun l => T p l * w (SS t) l)), (head_two nb p (fun l => S p l * w t l)) in E; try lia.
          - unfold r1, rr; match type of E with ?a + ?x = ?b => transitivity (a + x - x); [ring|rewrite E; ring] end.
          - intros l Hl'; rewrite below_S; [ring|lia|apply Cp; lia|exact Hl'].
          - intros l Hl'; rewrite below_T; [ring|lia|exact Hl']. }
        assert (R2 : forall t, T (SS p) (SS p) * w (SS t) (SS p) = S (SS p) p * w t p + S (SS p) (SS p) * w t (SS p) + r2 t).
        { intros t; pose proof (Hw t (SS p) ltac:(lia)) as E.
          rewrite (head_two nb p (fun l => T (SS p) l * w (SS t) l)), (head_two nb p (fun l => S (SS p) l * w t l)) in E; try lia.
          - rewrite (below_T (SS p) p) in E by lia.
            unfold r2, rr; match type of E with 0 * ?z + ?a + ?x = ?b => transitivity (0 * z + a + x - x); [ring|rewrite E; ring] end.
          - intros l Hl'; rewrite (far_S (SS p) l); [ring|lia|lia].
          - intros l Hl'; rewrite below_T; [ring|lia|lia]. }
        destruct (roots_two p ltac:(lia) Sn) as (re & im & E1 & E2 & Hi & T1 & T2 & Ht & Hd).
        set (d := re * re + im * im).
        assert (Od : ~ le 1 d) by (pose proof (Ins p ltac:(lia)) as Op; rewrite E1 in Op; exact Op).
        set (t1 := T p p) in *; set (t2 := T p (SS p)) in *; set (t3 := T (SS p) (SS p)) in *.
        set (s1 := S p p) in *; set (s2 := S p (SS p)) in *; set (s3 := S (SS p) p) in *; set (s4 := S (SS p) (SS p)) in *.
        set (a := fun t => w t p); set (b := fun t => w t (SS p)).
        set (Pn := fun t => (s3 * a t + s4 * b t) / t3).
        assert (Eb : forall t, b (SS t) = Pn t + r2 t / t3).
        { intros t; unfold b; transitivity ((t3 * w (SS t) (SS p)) / t3); [field; exact T2|]; rewrite R2; unfold Pn, a, b; field; exact T2. }
        assert (Ea : forall t, a (SS t) = (s1 * a t + s2 * b t + r1 t - t2 * b (SS t)) / t1).
        { intros t; unfold a at 1; transitivity ((t1 * w (SS t) p + t2 * w (SS t) (SS p) - t2 * w (SS t) (SS p)) / t1); [field; exact T1|]; rewrite R1; unfold a, b; field; exact T1. }
        assert (Re : re + re = (s1 * t3 + s4 * t1 - s3 * t2) / (t1 * t3)).
        { transitivity (((re + re) * (t1 * t3)) / (t1 * t3)); [field; split; assumption|].
          replace ((re + re) * (t1 * t3)) with (s1 * t3 + s4 * t1 - s3 * t2) by (rewrite <- Ht; ring); reflexivity. }
        assert (De : d = (s1 * s4 - s2 * s3) / (t1 * t3)).
        { transitivity ((d * (t1 * t3)) / (t1 * t3)); [field; split; assumption|].
          replace (d * (t1 * t3)) with (s1 * s4 - s2 * s3) by (rewrite <- Hd; unfold d; ring); reflexivity. }
        set (cP := fun t => (s3 / (t1 * t3)) * r1 t + ((s4 / t3 - s3 * t2 / (t1 * t3)) / t3) * r2 t).
        assert (EP : forall t, Pn (SS t) = (re + re) * Pn t - d * b t + cP t).
        { intros t; unfold Pn at 1; rewrite Ea, Eb; rewrite Re, De; unfold cP, Pn; field; split; assumption. }
        assert (BP : bnd cP) by (apply bnd_add; apply bnd_scale; assumption).
        destruct (shrink F O finv FT le OR dec (fun t => Pn t - re * b t) (fun t => im * b t) (fun t => re * Pn t - d * b t) (fun t => im * Pn t)
          (fun t => cP t + (ropp O re / t3) * r2 t) (fun t => (im / t3) * r2 t) d Od (delta_nonneg re im)) as [BX BY].
        + intros t; rewrite EP, Eb; field; exact T2.
        + intros t; rewrite Eb; field; exact T2.
        + intros t; unfold d; ring.
        + apply bnd_add; [exact BP|apply bnd_scale, B2].
        + apply bnd_scale, B2.
        + assert (Bb : bnd b) by (apply (bnd_ext (fun t => (1 / im) * (im * b t))); [intros t; field; exact Hi|apply bnd_scale, BY]).
          split; [|exact Bb].
          apply (bnd_ext (fun t => (t3 / s3) * (Pn t - re * b t) + ((t3 * re - s4) / s3) * b t)).
          * intros t; unfold Pn; change (w t p) with (a t); field; split; assumption.
          * apply bnd_add; apply bnd_scale; assumption.
    Qed.
  End Stable.
End Blocks.
