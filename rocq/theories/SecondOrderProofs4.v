(** Arrays that are vectors when they have one column. *)
From Verif Require Import Base Nd NdProofs Mat MatProofs SimSpec SimProofs2 Indexing Moments FirstOrder FirstOrderSpec Sylvester SylvesterSpec SylvesterProofs2
  SecondOrder SecondOrderProofs2.

Section Arrays.
  Variable F : Type.
  Variable O : rops F.
  Hypothesis RT : is_ring O.
  Let RT' : ring_theory (r0 O) (r1 O) (radd O) (rmul O) (rsub O) (ropp O) eq := RT.
  Add Ring ArRing : RT'.
  Variable solve : nat -> nat -> mat F -> mat F -> res (mat F).
  Local Notation rsum := (rsum F O).
  Local Notation meq := (meq F).

  Definition cv (r c : nat) (f : mat F) : nd F := if c =? 1 then V1 r (fun i => f i 0) else M2 r c f.
  Definition isV (a : nd F) (r c : nat) (m : mat F) : Prop := exists f, a = cv r c f /\ meq r c f m.
  Definition isM (a : nd F) (r c : nat) (m : mat F) : Prop := exists f, a = M2 r c f /\ meq r c f m.
  (** A result that is such an array. *)
  Definition okV (a : res (nd F)) (r c : nat) (m : mat F) : Prop := exists x, a = Ok x /\ isV x r c m.
  Definition okM (a : res (nd F)) (r c : nat) (m : mat F) : Prop := exists x, a = Ok x /\ isM x r c m.

  Lemma squeeze_cv r c f : r <> 1 -> squeeze F (M2 r c f) = cv r c f.
  Proof. intros H; unfold squeeze, cv; rewrite (proj2 (Nat.eqb_neq r 1) H); reflexivity. Qed.
  Lemma isV_squeeze a r c m : r <> 1 -> isM a r c m -> isV (squeeze F a) r c m.
  Proof. intros H (f & -> & E); exists f; split; [apply squeeze_cv, H|exact E]. Qed.
  Lemma isM_ext a r c m m' : isM a r c m -> meq r c m m' -> isM a r c m'.
  Proof. intros (f & -> & E) E'; exists f; split; [reflexivity|]; transitivity m; assumption. Qed.
  Lemma isV_ext a r c m m' : isV a r c m -> meq r c m m' -> isV a r c m'.
  Proof. intros (f & -> & E) E'; exists f; split; [reflexivity|]; transitivity m; assumption. Qed.
  Lemma isV_M2 a r c m : c <> 1 -> isV a r c m -> isM a r c m.
  Proof. intros H (f & -> & E); exists f; split; [unfold cv; rewrite (proj2 (Nat.eqb_neq c 1) H); reflexivity|exact E]. Qed.
  Lemma isM_V a r c m : c <> 1 -> isM a r c m -> isV a r c m.
  Proof. intros H (f & -> & E); exists f; split; [unfold cv; rewrite (proj2 (Nat.eqb_neq c 1) H); reflexivity|exact E]. Qed.
  Lemma isV_sized a r c m : isV a r c m -> sized F a r c /\ meq r c (entries F a) m.
  Proof.
    intros (f & -> & E); unfold cv; destruct (Nat.eqb_spec c 1) as [->|N]; cbn [sized entries]; split; auto.
    intros i j Hi Hj; rewrite E by lia; replace j with 0 by lia; reflexivity.
  Qed.
  Lemma isM_sized a r c m : isM a r c m -> sized F a r c /\ meq r c (entries F a) m.
  Proof. intros (f & -> & E); cbn [sized entries]; auto. Qed.
  Lemma isV_ensure2 a r c m : isV a r c m -> isM (ensure2 F a) r c m.
  Proof.
    intros (f & -> & E); unfold cv; destruct (Nat.eqb_spec c 1) as [->|N]; cbn [ensure2]; eexists; split; try reflexivity; [|exact E].
    intros i j Hi Hj; rewrite E by lia; replace j with 0 by lia; reflexivity.
  Qed.
  (** What has the shape of such an array is one. *)
  Lemma shape_isV a b r c m : isV b r c m -> shape F a = shape F b -> isV a r c (entries F a).
  Proof.
    intros (f & -> & _); unfold cv; destruct (Nat.eqb_spec c 1) as [->|N]; destruct a as [x|q v|q q' v]; cbn [shape]; intros H; try discriminate H; injection H; intros; subst.
    - exists (fun i _ => v i); split; [reflexivity|intros i j _ _; reflexivity].
    - exists v; split; [unfold cv; rewrite (proj2 (Nat.eqb_neq c 1) N); reflexivity|intros i j _ _; reflexivity].
  Qed.
  Lemma isV_neg a r c m : isV a r c m -> isV (nneg F O a) r c (fun i j => ropp O (m i j)).
  Proof.
    intros (f & -> & E); exists (fun i j => ropp O (f i j)); split; [unfold cv; destruct (c =? 1); reflexivity|].
    intros i j Hi Hj; rewrite E by assumption; reflexivity.
  Qed.
  Lemma isM_neg a r c m : isM a r c m -> isM (nneg F O a) r c (fun i j => ropp O (m i j)).
  Proof. intros (f & -> & E); exists (fun i j => ropp O (f i j)); split; [reflexivity|]; intros i j Hi Hj; rewrite E by assumption; reflexivity. Qed.
  Lemma isV_div a r c m x : isV a r c m -> isV (nscale_div F O a x) r c (fun i j => rdiv O (m i j) x).
  Proof.
    intros (f & -> & E); exists (fun i j => rdiv O (f i j) x); split; [unfold cv; destruct (c =? 1); reflexivity|].
    intros i j Hi Hj; rewrite E by assumption; reflexivity.
  Qed.
  Lemma at_below n i : i < n -> at_ n i = i.
  Proof. unfold at_; destruct (Nat.eqb_spec n 1); lia. Qed.
  Lemma axis_same n : axis n n = Some n.
  Proof. unfold axis; rewrite Nat.eqb_refl; reflexivity. Qed.
  Lemma elementwise_same h a b r c m m' : isV a r c m -> isV b r c m' -> okV (elementwise F h a b) r c (fun i j => h (m i j) (m' i j)).
  Proof.
    intros (f & -> & E) (f' & -> & E'); unfold cv; destruct (Nat.eqb_spec c 1) as [->|N]; cbn [elementwise rows cols]; rewrite ?axis_same; eexists; (split; [reflexivity|]).
    - exists (fun i j => h (f (at_ r i) 0) (f' (at_ r i) 0)); split; [reflexivity|]; intros i j Hi Hj; rewrite at_below, E, E' by lia; replace j with 0 by lia; reflexivity.
    - apply isM_V; [exact N|]; eexists; split; [reflexivity|]; intros i j Hi Hj; cbn [entry]; rewrite !at_below, E, E' by assumption; reflexivity.
  Qed.
  Lemma elementwise_mats h a b r c m m' : isM a r c m -> isM b r c m' -> okM (elementwise F h a b) r c (fun i j => h (m i j) (m' i j)).
  Proof.
    intros (f & -> & E) (f' & -> & E'); cbn [elementwise rows cols]; rewrite ?axis_same; eexists; split; [reflexivity|].
    eexists; split; [reflexivity|]; intros i j Hi Hj; cbn [entry]; rewrite !at_below, E, E' by assumption; reflexivity.
  Qed.
  Lemma matmul_cv a b r k c m m' : isM a r k m -> isV b k c m' -> okV (nmatmul F O a b) r c (mmul F O k m m').
  Proof.
    intros (f & -> & E) (f' & -> & E'); exists (cv r c (mmul F O k f f')); split.
    - unfold cv; destruct (c =? 1); cbn [nmatmul]; rewrite Nat.eqb_refl; reflexivity.
    - eexists; split; [reflexivity|]; apply (mmul_proper F O r k c); assumption.
  Qed.
  Lemma matmul_mm a b r k c m m' : isM a r k m -> isM b k c m' -> okM (nmatmul F O a b) r c (mmul F O k m m').
  Proof.
    intros (f & -> & E) (f' & -> & E'); eexists; split; [cbn [nmatmul]; rewrite Nat.eqb_refl; reflexivity|].
    eexists; split; [reflexivity|]; apply (mmul_proper F O r k c); assumption.
  Qed.
  Lemma item_mat r c f : r <> 1 \/ c <> 1 -> item F (M2 r c f) = Err ValueErr.
  Proof. intros H; cbn [item]; destruct (Nat.eqb_spec r 1), (Nat.eqb_spec c 1); cbn [andb]; try reflexivity; lia. Qed.
  Lemma item_cv r c f : r <> 1 \/ c <> 1 -> item F (cv r c f) = Err ValueErr.
  Proof.
    intros H; unfold cv; destruct (Nat.eqb_spec c 1); [|apply item_mat; right; assumption].
    cbn [item]; rewrite (proj2 (Nat.eqb_neq r 1)) by lia; reflexivity.
  Qed.
  Lemma matmul_scalar_cv a b r k c m m' : isM a r k m -> isV b k c m' -> r <> 1 -> k <> 1 \/ c <> 1 -> okV (matmul_scalar F O a b) r c (mmul F O k m m').
  Proof.
    intros A B Hr Hk; unfold matmul_scalar.
    destruct (matmul_cv a b r k c m m' A B) as (x & E1 & E2); exists x; split; [|exact E2].
    destruct A as (f & -> & _), B as (f' & -> & _); rewrite item_mat by (left; exact Hr); rewrite item_cv by exact Hk; exact E1.
  Qed.
  (** ** Indexing *)
  Lemma take_cols_M l r c f : (forall i, In i l -> i < c) -> take_cols F l (M2 r c f) = Ok (M2 r (List.length l) (fun i j => f i (nth j l 0))).
  Proof. intros H; cbn [take_cols]; rewrite (proj2 (forallb_forall _ l)); [reflexivity|]; intros i Hi; apply Nat.ltb_lt, H, Hi. Qed.
  Lemma rows_where_cv mask r c f : List.length mask = r -> rows_where F mask (cv r c f) = Ok (cv (count_true mask) c (fun i => f (nth i (where_ mask 0) 0))).
  Proof. intros <-; unfold cv; destruct (c =? 1); cbn [rows_where]; rewrite Nat.eqb_refl; reflexivity. Qed.
  Lemma rows_where_M mask r c f : List.length mask = r -> rows_where F mask (M2 r c f) = Ok (M2 (count_true mask) c (fun i => f (nth i (where_ mask 0) 0))).
  Proof. intros <-; cbn [rows_where]; rewrite Nat.eqb_refl; reflexivity. Qed.
  Lemma at_many l r c f : c <> 1 -> (forall i, In i l -> i < r) -> at_loc F (Many l) (cv r c f) = Ok (M2 (List.length l) c (fun i => f (nth i l 0))).
  Proof.
    intros N H; unfold cv; rewrite (proj2 (Nat.eqb_neq c 1) N); cbn [at_loc]; rewrite (proj2 (forallb_forall _ l)); [reflexivity|]; intros i Hi; apply Nat.ltb_lt, H, Hi.
  Qed.
  (** ** Stacking *)
  Lemma vstack_M a b r r' c m m' : isM a r c m -> isM b r' c m' -> okM (vstack F a b) (r + r') c (vcat F r m m').
  Proof.
    intros (f & -> & E) (f' & -> & E'); eexists; split; [cbn [vstack]; rewrite Nat.eqb_refl; reflexivity|].
    eexists; split; [reflexivity|]; intros i j Hi Hj; unfold vcat; destruct (Nat.ltb_spec i r); [apply E|apply E']; lia.
  Qed.
  Lemma hstack_M a b r c c' m m' : isM a r c m -> isM b r c' m' -> okM (hstack F a b) r (c + c') (hcat F c m m').
  Proof.
    intros (f & -> & E) (f' & -> & E'); eexists; split; [cbn [hstack]; rewrite Nat.eqb_refl; reflexivity|].
    eexists; split; [reflexivity|]; intros i j Hi Hj; unfold hcat; destruct (Nat.ltb_spec j c); [apply E|apply E']; lia.
  Qed.
  Lemma concat4_V a b c d r1_ r2 r3 r4 k ma mb mc md : isM (ensure2 F a) r1_ k ma -> isM (ensure2 F b) r2 k mb -> isM (ensure2 F c) r3 k mc -> isM (ensure2 F d) r4 k md ->
    (r1_ + r2 + r3 + r4 <> 1)%nat -> okV (concat4 F a b c d) (r1_ + r2 + r3 + r4) k (vcat F (r1_ + r2 + r3) (vcat F (r1_ + r2) (vcat F r1_ ma mb) mc) md).
  Proof.
    intros A B C D N; unfold concat4.
    destruct (vstack_M _ _ _ _ _ _ _ A B) as (x & -> & X); cbn [bind].
    destruct (vstack_M _ _ _ _ _ _ _ X C) as (y & -> & Y); cbn [bind].
    destruct (vstack_M _ _ _ _ _ _ _ Y D) as (z & -> & Z); cbn [bind].
    eexists; split; [reflexivity|]; apply isV_squeeze; assumption.
  Qed.
  Lemma concat3_M a b c r k1 k2 k3 ma mb mc : isM (ensure2 F a) r k1 ma -> isM (ensure2 F b) r k2 mb -> isM (ensure2 F c) r k3 mc ->
    exists x, concat3 F a b c = Ok (squeeze F x) /\ isM x r (k1 + k2 + k3) (hcat F (k1 + k2) (hcat F k1 ma mb) mc).
  Proof.
    intros A B C; unfold concat3.
    destruct (hstack_M _ _ _ _ _ _ _ A B) as (x & -> & X); cbn [bind].
    destruct (hstack_M _ _ _ _ _ _ _ X C) as (y & -> & Y); cbn [bind].
    eexists; split; [reflexivity|exact Y].
  Qed.
  (** ** Kronecker products *)
  Definition kr (q c : nat) (f g : mat F) : mat F := fun P j => rmul O (f (P / q) (j / c)) (g (P mod q) (j mod c)).
  Lemma kr_ext q c b f g f' g' : meq q b f f' -> meq q c g g' -> 0 < q -> 0 < c -> meq (q * q) (b * c) (kr q c f g) (kr q c f' g').
  Proof.
    intros E E' Hq Hc i j Hi Hj; unfold kr; rewrite E, E'; [reflexivity| | | |].
    - apply Nat.mod_upper_bound; lia.
    - apply Nat.mod_upper_bound; lia.
    - apply Nat.div_lt_upper_bound; [lia|exact Hi].
    - apply Nat.div_lt_upper_bound; [lia|]; rewrite Nat.mul_comm; exact Hj.
  Qed.
  Lemma sq_one q : (q * q)%nat = 1 <-> q = 1.
  Proof. split; [destruct q as [|[|q]]; cbn; lia|intros ->; reflexivity]. Qed.
  Lemma kron_mm h f g n q b c mh mf mg : isM h n (q * q) mh -> isM f q b mf -> isM g q c mg -> 0 < q -> 0 < c -> 0 < b ->
    okM (matrix_kron F O h f (Some g)) n (b * c) (mmul F O (q * q) mh (kr q c mf mg)).
  Proof.
    intros A B C Hq Hc Hb; unfold matrix_kron.
    assert (K : isM (nkron F O f g) (q * q) (b * c) (kr q c mf mg)).
    { destruct B as (f' & -> & B), C as (g' & -> & C); exists (kr q c f' g'); split; [reflexivity|apply kr_ext; assumption]. }
    destruct A as (h' & -> & A); cbn [shape]; destruct (Nat.eqb_spec (q * q) 1) as [E|E].
    - destruct K as (f' & -> & K); cbn [shape]; rewrite (proj2 (Nat.eqb_eq _ _) E).
      eexists; split; [reflexivity|]; exists (fun i j => rmul O (flat F (M2 n (q * q) h') i) (flat F (M2 (q * q) (b * c) f') j)); split.
      + unfold nouter; cbn [nsize]; rewrite E, Nat.mul_1_r, Nat.mul_1_l; reflexivity.
      + intros i j Hi Hj; unfold mmul; rewrite E, (rsum_one F O RT); cbn [flat].
        rewrite Nat.div_1_r, Nat.mod_1_r, (Nat.div_small j) by exact Hj; rewrite (Nat.mod_small j) by exact Hj.
        rewrite A, K by (rewrite ?E; lia || assumption); reflexivity.
    - apply matmul_mm; [exists h'; auto|exact K].
  Qed.
  (** The square of an array that may be a vector. *)
  Lemma kron_cv h f n q c mh mf : isM h n (q * q) mh -> isV f q c mf -> 0 < q -> 0 < c -> q <> 1 \/ c <> 1 ->
    okV (matrix_kron F O h f None) n (c * c) (mmul F O (q * q) mh (kr q c mf mf)).
  Proof.
    intros A B Hq Hc N; destruct (Nat.eq_dec c 1) as [->|Nc].
    - destruct B as (f' & -> & B); unfold cv; cbn [Nat.eqb]; unfold matrix_kron; cbn [nkron].
      destruct A as (h' & -> & A); cbn [shape]; rewrite (proj2 (Nat.eqb_neq (q * q) 1)) by (rewrite sq_one; lia).
      apply matmul_cv; [exists h'; auto|]; exists (fun i _ => rmul O (f' (i / q) 0) (f' (i mod q) 0)); split; [reflexivity|].
      intros i j Hi Hj; unfold kr; rewrite Nat.div_1_r, Nat.mod_1_r; replace j with 0 by lia; rewrite !B; try lia; [reflexivity|apply Nat.mod_upper_bound; lia|apply Nat.div_lt_upper_bound; [lia|exact Hi]].
    - pose proof (isV_M2 _ _ _ _ Nc B) as B'; destruct (kron_mm h f f n q c c mh mf mf A B' B' Hq Hc Hc) as (x & E & Ex).
      exists x; split; [exact E|apply isM_V; [rewrite sq_one; exact Nc|exact Ex]].
  Qed.
  (** ** Linear systems *)
  Lemma lsolve_cv a b r c m m' : isM a r r m -> isV b r c m' ->
    (exists e k A B, lsolve F solve a b = Err e /\ solve r k A B = Err e) \/
    (exists x A B X, lsolve F solve a b = Ok x /\ solve r c A B = Ok X /\ meq r r A m /\ meq r c B m' /\ isV x r c X).
  Proof.
    intros (f & -> & E) (f' & -> & E'); unfold cv; destruct (Nat.eqb_spec c 1) as [->|N]; cbn [lsolve]; rewrite Nat.eqb_refl; cbn [negb orb].
    - destruct (solve r 1 f _) as [X|e] eqn:S_; cbn [bind]; [right|left; exists e; repeat eexists; exact S_].
      eexists _, f, _, X; split; [reflexivity|]; split; [exact S_|]; split; [exact E|]; split.
      + intros i j Hi Hj; unfold col; rewrite E' by lia; replace j with 0 by lia; reflexivity.
      + exists X; split; [reflexivity|intros i j _ _; reflexivity].
    - destruct (solve r c f f') as [X|e] eqn:S_; cbn [bind]; [right|left; exists e; repeat eexists; exact S_].
      eexists _, f, f', X; split; [reflexivity|]; split; [exact S_|]; split; [exact E|]; split; [exact E'|].
      apply isM_V; [exact N|]; exists X; split; [reflexivity|intros i j _ _; reflexivity].
  Qed.
End Arrays.
