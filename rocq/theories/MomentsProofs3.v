(** Variance decompositions. *)
From Verif Require Import Base Semantics Nd NdProofs SimSpec Sim SimProofs3 Mat MatProofs MomentsSpec Moments MomentsProofs MomentsProofs2 SummaryProofs.
From Verif Require Indexing.
From Coq Require Import Ring Field Permutation.

Section Decomp.
  Variable F : Type.
  Variable O : rops F.
  Variable inv : F -> F.
  Hypothesis FT : is_field O inv.
  Let FT' : field_theory (r0 O) (r1 O) (radd O) (rmul O) (rsub O) (ropp O) (rdiv O) inv eq := FT.
  Add Field MomField : FT'.
  Lemma RT : is_ring O. Proof. exact (F_R FT). Qed.
  Notation rsum := (rsum F O).
  Notation mmul := (mmul F O).
  Notation madd := (madd F O).
  Notation meq := (meq F).
  Notation isM := (isM F).
  Notation mtr := (mtr F).
  Variable lyap : nat -> mat F -> mat F -> res (mat F).
  Hypothesis HL : solves_lyapunov F O lyap.
  Variable chol_low : nat -> mat F -> res (mat F).
  Hypothesis HC : factors F O chol_low.
  Variable abs : F -> F.

  Variable g : rule F.
  Variable m : smodel F.
  Variable s : lsol F.
  Hypothesis HR : has_rule F g m s.
  Hypothesis Hn : 1 < rn g.
  Notation A := (A F g).
  Notation B := (B F g).
  Notation Yd := (Yd F g m).
  Notation Ud := (Ud F g m).
  Notation P := (perturbed F O m).

  (** The covariance matrix when only the [i]-th orthogonal shock is at work. *)
  Definition only (L : mat F) (i : nat) : mat F := fun a b => rmul O (L a i) (L b i).
  (** The variance of the variables then, given the covariance [X] of the states. *)
  Definition variance (S X : mat F) (v : nat) : F :=
    madd (mmul (rs g) Yd (mmul (rs g) X (mtr Yd))) (mmul (rk g) Ud (mmul (rk g) S (mtr Ud))) v v.
  Definition solution_for (S X : mat F) : Prop :=
    meq (rs g) (rs g) X (madd (mmul (rs g) A (mmul (rs g) X (mtr A))) (mmul (rk g) B (mmul (rk g) S (mtr B)))).

  (** (M L)_i (N L)_i' = M (L_i L_i') N' *)
  Lemma outer_product (M N L : mat F) i a b :
    rmul O (mmul (rk g) M L a i) (mmul (rk g) N L b i) = mmul (rk g) M (mmul (rk g) (only L i) (mtr N)) a b.
  Proof using FT.
    unfold Mat.mmul, only, Mat.mtr; rewrite <- (rsum_mul_r F O RT); apply rsum_ext; intros x _.
    transitivity (rmul O (rmul O (M a x) (L x i)) (rsum (rk g) (fun k => rmul O (N b k) (L k i)))); [reflexivity|].
    rewrite <- !(rsum_mul_l F O RT); apply rsum_ext; intros z _; ring.
  Qed.

  Lemma take_full idx n c a f : isM n c a f -> (forall i, In i idx -> i < n) ->
    exists b, take F idx a = Ok b /\ isM (List.length idx) c b (fun i => f (nth i idx 0)).
  Proof using.
    intros (f' & -> & Hf) H; cbn [take]; rewrite (proj2 (forallb_forall _ _)) by (intros i Hi; apply Nat.ltb_lt, H, Hi).
    eexists; split; [reflexivity|]; eexists; split; [reflexivity|]; intros i j Hi Hj; apply Hf; [apply H, nth_In, Hi|exact Hj].
  Qed.
  Lemma ensure_squeeze n c (f : mat F) : 1 < n -> isM n c (ensure2 F (squeeze F (M2 n c f))) f.
  Proof using.
    clear Hn; intros H; unfold squeeze; destruct (Nat.eqb_spec n 1); [lia|]; destruct (Nat.eqb_spec c 1) as [->|Hc]; cbn [ensure2]; [|apply isM_refl].
    eexists; split; [reflexivity|]; intros i j _ Hj; replace j with 0 by lia; reflexivity.
  Qed.

  (** What the loop computes for one shock. *)
  Definition part (gy A' sc gc : nd F) (i : nat) : res (nat -> F) :=
    do sci <- column F i sc;
    do gci <- column F i gc;
    do vi <- lyapunov F lyap A' (nouter F O sci sci);
    do xi <- mm3 F O gy vi (ntrans F gy);
    do t <- nadd F O xi (nouter F O gci gci);
    Ok (row_of F (nmap F abs (diag F O t)) 0).
  Lemma part_ok L gy A' sc gc i f : isM (rn g) (rs g) gy Yd -> isM (rs g) (rs g) A' A ->
    isM (rs g) (rk g) sc (mmul (rk g) B L) -> isM (rn g) (rk g) gc (mmul (rk g) Ud L) -> i < rk g ->
    part gy A' sc gc i = Ok f ->
    exists X, solution_for (only L i) X /\ forall v, v < rn g -> f v = abs (variance (only L i) X v).
  Proof using HL FT.
    intros Hy Ha (sc' & -> & Hs) (gc' & -> & Hg) Hi; unfold part, column; rewrite (proj2 (Nat.ltb_lt _ _) Hi); cbn [bind].
    set (os := nouter F O (V1 (rs g) (fun a => sc' a i)) (V1 (rs g) (fun a => sc' a i))).
    assert (Ho : isM (rs g) (rs g) os (mmul (rk g) B (mmul (rk g) (only L i) (mtr B)))).
    { eexists; split; [reflexivity|]; intros a b Hb1 Hb2; cbn [flat]; rewrite !Hs by assumption; apply outer_product. }
    set (og := nouter F O (V1 (rn g) (fun a => gc' a i)) (V1 (rn g) (fun a => gc' a i))).
    assert (Hg' : isM (rn g) (rn g) og (mmul (rk g) Ud (mmul (rk g) (only L i) (mtr Ud)))).
    { eexists; split; [reflexivity|]; intros a b Hb1 Hb2; cbn [flat]; rewrite !Hg by assumption; apply outer_product. }
    destruct (lyapunov F lyap A' os) as [vi|] eqn:E; cbn [bind]; [|discriminate].
    destruct (lyapunov_ok F O lyap HL g _ _ _ _ Ha Ho E) as (X & -> & HX); pose proof (isM_refl F (rs g) (rs g) X) as Hv.
    destruct (isM_mm3 F O _ _ _ _ _ _ _ _ _ _ Hy Hv (isM_trans _ _ _ _ _ Hy)) as (xt & -> & Hxt); cbn [bind].
    destruct (isM_add F O _ _ _ _ _ _ Hxt Hg') as (t & -> & (t' & -> & Ht)); cbn [bind diag nmap row_of]; intros H'; injection H' as <-.
    exists X; split; [exact HX|]; intros v Hv'; f_equal; apply Ht; assumption.
  Qed.

  Lemma mapM_parts {T} (h : nat -> res T) (d : T) : forall l out, mapM h l = Ok out -> List.length out = List.length l /\
    forall i, i < List.length l -> h (nth i l 0) = Ok (nth i out d).
  Proof using.
    clear Hn; induction l as [|x l IH]; intros out; cbn [mapM]; [intros E; injection E as <-; split; [reflexivity|]; cbn; intros i Hi; lia|].
    destruct (h x) as [y|] eqn:Ey; cbn [bind]; [|discriminate]; destruct (mapM h l) as [ys|] eqn:El; cbn [bind]; [|discriminate].
    intros E; injection E as <-; destruct (IH ys eq_refl) as (L & H); split; [cbn; lia|].
    intros [|i] Hi; cbn [nth]; [exact Ey|apply H; cbn in Hi; lia].
  Qed.

  (** The shares: there are parts, one for each shock, and their shares. *)
  Lemma shares_ok a : shares F O lyap chol_low abs (Ok tt) m s = Ok a ->
    exists L X h, chol_low (rk g) P = Ok L /\
      (forall i, i < rk g -> solution_for (only L i) (X i)) /\
      a = M2 (rn g) (rk g) h /\
      forall v i, v < rn g -> i < rk g ->
        h v i = rdiv O (abs (variance (only L i) (X i) v)) (rsum (rk g) (fun j => abs (variance (only L j) (X j) v))).
  Proof using HL HR Hn FT.
    pose proof HR as (W & (Lss & Lk & Eo & Es) & Ey & Eu); unfold shares; rewrite Ey, Eu, Lk, Lss; unfold gy_of, gu_of.
    assert (In1 : forall i, In i (dc_order F m) -> i < rn g) by (apply (dc_in F g m s HR)).
    destruct (take_full _ _ _ _ _ (ensure_squeeze (rn g) (rs g) (ry g) Hn) In1) as (gy & -> & Hy); cbn [bind].
    destruct (take_full _ _ _ _ _ (ensure_squeeze (rn g) (rk g) (ru g) Hn) In1) as (gu & -> & Hu); cbn [bind].
    rewrite (dc_len F g m s HR) in Hy, Hu.
    destruct (kalman_ok F g m s HR Hn) as (a' & b' & -> & Ha & Hb); cbn [bind fst snd].
    destruct (chol_low (rk g) P) as [L|] eqn:EL; cbn [bind]; [|discriminate].
    destruct (isM_matmul F O _ _ _ _ _ _ _ Hb (isM_refl F (rk g) (rk g) L)) as (sc & -> & Hsc); cbn [bind].
    destruct (isM_matmul F O _ _ _ _ _ _ _ Hu (isM_refl F (rk g) (rk g) L)) as (gc & -> & Hgc); cbn [bind].
    destruct (isM_matmul F O _ _ _ _ _ _ _ Hsc (isM_trans _ _ _ _ _ Hsc)) as (sg & -> & Hsg); cbn [bind].
    destruct (lyapunov F lyap a' sg); cbn [bind]; [|discriminate].
    match goal with |- (do cols <- mapM ?h _; _) = _ -> _ => change h with (part gy a' sc gc) end.
    destruct (mapM (part gy a' sc gc) (seq 0 (rk g))) as [cols|] eqn:Ec; cbn [bind]; [|discriminate]; intros E; injection E as <-.
    destruct (mapM_parts (part gy a' sc gc) (fun _ => r0 O) _ _ Ec) as (Lc & Hc); rewrite seq_length in Lc, Hc.
    assert (Hp : forall i, i < rk g -> exists X, solution_for (only L i) X /\ forall v, v < rn g -> nth i cols (fun _ => r0 O) v = abs (variance (only L i) X v)).
    { intros i Hi; specialize (Hc i Hi); rewrite seq_nth in Hc by exact Hi; cbn [plus] in Hc; exact (part_ok L gy a' sc gc i _ Hy Ha Hsc Hgc Hi Hc). }
    assert (HX : exists X, forall i, i < rk g -> solution_for (only L i) (X i) /\ forall v, v < rn g -> nth i cols (fun _ => r0 O) v = abs (variance (only L i) (X i) v)).
    { clear -Hp; revert Hp; generalize (rk g) as k; induction k as [|k IH]; intros Hp; [exists (fun _ _ _ => r0 O); intros i Hi; lia|].
      destruct IH as (X & HX); [intros i Hi; apply Hp; lia|]; destruct (Hp k (Nat.lt_succ_diag_r k)) as (Y & HY).
      exists (fun i => if i =? k then Y else X i); intros i Hi; destruct (Nat.eqb_spec i k) as [->|Ne]; [exact HY|apply HX; lia]. }
    destruct HX as (X & HX); eexists; exists X; eexists; split; [reflexivity|]; split; [intros i Hi; apply HX, Hi|]; split; [reflexivity|].
    intros v i Hv Hi; cbn beta; rewrite (proj2 (HX i Hi) v Hv); f_equal; apply rsum_ext; intros j Hj; apply HX; assumption.
  Qed.

  (** The parts add up to the variance with the perturbed covariance matrix. *)
  Hypothesis Sb : stable F O g.
  Lemma rsum_factor M L a b : (forall x y, x < rk g -> y < rk g -> P x y = rsum (rk g) (fun i => rmul O (L x i) (L y i))) ->
    mmul (rk g) M (mmul (rk g) P (mtr M)) a b = rsum (rk g) (fun i => mmul (rk g) M (mmul (rk g) (only L i) (mtr M)) a b).
  Proof using FT.
    intros HP; unfold Mat.mmul, Mat.mtr, only; rewrite (rsum_swap F O RT); apply rsum_ext; intros x Hx.
    rewrite (rsum_mul_l F O RT); f_equal; rewrite (rsum_swap F O RT); apply rsum_ext; intros z Hz.
    rewrite (rsum_mul_r F O RT); f_equal; apply HP; assumption.
  Qed.
  Lemma rsum_state (X : nat -> mat F) (M : mat F) a b k :
    mmul (rs g) M (mmul (rs g) (fun i j => rsum k (fun l => X l i j)) (mtr M)) a b = rsum k (fun l => mmul (rs g) M (mmul (rs g) (X l) (mtr M)) a b).
  Proof using FT.
    unfold Mat.mmul, Mat.mtr; rewrite (rsum_swap F O RT); apply rsum_ext; intros x Hx.
    rewrite (rsum_mul_l F O RT); f_equal; rewrite (rsum_swap F O RT); apply rsum_ext; intros z Hz; rewrite (rsum_mul_r F O RT); reflexivity.
  Qed.
  Lemma parts_total L X Y : chol_low (rk g) P = Ok L -> (forall i, i < rk g -> solution_for (only L i) (X i)) -> solution_for P Y ->
    forall v, v < rn g -> rsum (rk g) (fun i => variance (only L i) (X i) v) = variance P Y v.
  Proof using HC FT Sb.
    intros EL HX HY v Hv; destruct (HC _ _ _ EL) as (HP & _); change (SimSpec.Sum F O) with rsum in HP.
    set (T := fun i j => rsum (rk g) (fun l => X l i j)).
    assert (HT : meq (rs g) (rs g) T Y).
    { apply (lyapunov_unique F O RT g Sb (mmul (rk g) B (mmul (rk g) P (mtr B))) (mmul (rk g) B (mmul (rk g) P (mtr B)))); [|exact HY|reflexivity].
      intros i j Hi Hj; unfold T at 1; unfold Mat.madd; rewrite (rsum_factor B L) by exact HP; unfold T; rewrite rsum_state, <- (rsum_add F O RT).
      apply rsum_ext; intros l Hl; exact (HX l Hl i j Hi Hj). }
    unfold variance, Mat.madd; rewrite (rsum_add F O RT); f_equal; [|symmetry; apply rsum_factor; exact HP].
    rewrite <- (rsum_state X Yd v v (rk g)); fold T; unfold Mat.mmul; apply rsum_ext; intros a Ha; f_equal; apply rsum_ext; intros b Hb; f_equal; apply HT; assumption.
  Qed.

  (** Without correlation the factor is diagonal. *)
  Lemma no_zero_divisors x y : rmul O x y = r0 O -> x <> r0 O -> y = r0 O.
  Proof using FT.
    intros E N; transitivity (rmul O (rdiv O (r1 O) x) (rmul O x y)); [field; exact N|]; rewrite E; ring.
  Qed.
  Lemma factor_diagonal L : (forall x y, x < rk g -> y < rk g -> P x y = rsum (rk g) (fun i => rmul O (L x i) (L y i))) -> (forall i j, i < rk g -> j < rk g -> i < j -> L i j = r0 O) ->
    (forall i j, i < rk g -> j < rk g -> i <> j -> P i j = r0 O) -> (forall i, i < rk g -> P i i <> r0 O) ->
    forall j i, i < rk g -> j < rk g -> i <> j -> L i j = r0 O.
  Proof using FT.
    clear Hn; intros HP Up Off Dg.
    induction j as [j IH] using lt_wf_ind; intros i Hi Hj N; destruct (Nat.lt_ge_cases i j) as [H|H]; [apply Up; assumption|].
    assert (D : rmul O (L j j) (L j j) = P j j).
    { rewrite HP by assumption; symmetry; apply (rsum_single F O RT (rk g) j (fun i0 => rmul O (L j i0) (L j i0)) Hj).
      intros a Ha Na; destruct (Nat.lt_ge_cases a j) as [Ha'|Ha']; [rewrite (IH a Ha' j) by lia; ring|rewrite (Up j a) by lia; ring]. }
    apply (no_zero_divisors (L j j)); [|intros E; apply (Dg j Hj); rewrite <- D, E; ring].
    transitivity (P i j); [|apply Off; assumption]; rewrite HP by assumption; symmetry.
    rewrite (rsum_single F O RT (rk g) j _ Hj); [ring|]; intros a Ha Na; destruct (Nat.lt_ge_cases a j) as [Ha'|Ha']; [rewrite (IH a Ha' i) by lia; ring|rewrite (Up j a) by lia; ring].
  Qed.
  Lemma only_diagonal L i : (forall x y, x < rk g -> y < rk g -> P x y = rsum (rk g) (fun i => rmul O (L x i) (L y i))) -> (forall i j, i < rk g -> j < rk g -> i < j -> L i j = r0 O) ->
    (forall i j, i < rk g -> j < rk g -> i <> j -> P i j = r0 O) -> (forall i, i < rk g -> P i i <> r0 O) -> i < rk g ->
    forall a b, a < rk g -> b < rk g -> only L i a b = (if (a =? i) && (b =? i) then P i i else r0 O).
  Proof using FT.
    clear Hn; intros HP Up Off Dg Hi a b Ha Hb; pose proof (factor_diagonal L HP Up Off Dg) as H; unfold only.
    destruct (Nat.eqb_spec a i) as [->|N]; cbn [andb]; [|rewrite (H i a) by assumption; ring].
    destruct (Nat.eqb_spec b i) as [->|N]; [|rewrite (H i b) by assumption; ring].
    rewrite HP by assumption; symmetry.
    apply (rsum_single F O RT (rk g) i (fun a => rmul O (L i a) (L i a)) Hi); intros c Hc N; rewrite (H c i) by (assumption || congruence); ring.
  Qed.
End Decomp.
