(** Second-order simulation. *)
From Verif Require Import Base Semantics Nd SimSpec NdProofs Sim SimProofs.
From Coq Require Import Ring Field Permutation.

Section SimProofs2.
  Variable F : Type.
  Variable O : rops F.
  Variable inv : F -> F.
  Variable FT : is_field O inv.
  Hypothesis Two : twice_one O <> r0 O.
  Let FT' : field_theory (r0 O) (r1 O) (radd O) (rmul O) (rsub O) (ropp O) (rdiv O) inv eq := FT.
  Add Field Ffield : FT'.
  Let RT : is_ring O := F_R FT'.
  Notation rsum := (Nd.rsum F O).
  Notation get := (Sim.get F O).
  Notation value := (SimSpec.value F O).
  Notation vecl := (SimProofs.vecl F).
  Notation two := (Sim.two F O).

  Definition quarter : F := rdiv O (rdiv O (r1 O) two) two.
  Lemma quarter_eq x : rdiv O (rdiv O x two) two = rmul O quarter x.
  Proof.
    unfold quarter, Sim.two; change (radd O (r1 O) (r1 O)) with (twice_one O) in *.
    field; exact Two.
  Qed.

  Lemma rsum_prod a b f : rsum (a * b) f = rsum a (fun i => rsum b (fun j => f (i * b + j))).
  Proof using RT.
    induction a as [|a IH]; [reflexivity|].
    replace (S a * b) with (a * b + b) by lia.
    rewrite rsum_split by exact RT; rewrite IH; reflexivity.
  Qed.
  (** Columns of a Kronecker product of vectors. *)
  Lemma rsum_kron a b (X : nat -> F) (f g : nat -> F) : 
    rsum (a * b) (fun i => rmul O (X i) (rmul O (f (i / b)) (g (i mod b)))) =
    rsum a (fun i => rsum b (fun j => rmul O (X (i * b + j)) (rmul O (f i) (g j)))).
  Proof using RT.
    rewrite rsum_prod; apply rsum_ext; intros i Hi; apply rsum_ext; intros j Hj.
    rewrite Nat.div_add_l by lia; rewrite (Nat.div_small j b Hj), Nat.add_0_r.
    rewrite Nat.add_comm, Nat.mod_add, Nat.mod_small by lia; reflexivity.
  Qed.

  (** An array that is a matrix of [r] rows and [c] columns once it is made
      two-dimensional. *)
  Definition matl (r c : nat) (a : nd F) (X : nat -> nat -> F) : Prop :=
    exists X', ensure2 F a = M2 r c X' /\ forall i j, i < r -> j < c -> X' i j = X i j.

  Lemma matl_half r c a X : matl r c a X -> matl r c (nscale_div F O a two) (fun i j => rdiv O (X i j) two).
  Proof.
    intros (X' & E & H); exists (fun i j => rdiv O (X' i j) two); split.
    - destruct a as [x|m f|r' c' f]; cbn [ensure2 nscale_div nmap] in *; injection E as <- <- <-; reflexivity.
    - intros i j Hi Hj; rewrite H by assumption; reflexivity.
  Qed.

  Variable g : rule F.
  Hypothesis W : proper g.
  Let n := rn g. Let ns := rs g. Let k := rk g.
  Let gy := squeeze F (M2 n ns (ry g)).
  Let gu := squeeze F (M2 n k (ru g)).
  Let dr_state := map (fun s => nth s (rorder g) 0) (rstate g).

  Variable ys : list F.

  (** What the two shapes of a quadratic term are. *)
  Lemma kron_wide c A X (K : nat -> F) : c <> 1 -> A = M2 n c X ->
    (match shape F A with
     | _ :: ca :: _ =>
        if ca =? 1 then match shape F (V1 c K) with rk :: _ => if rk =? 1 then Ok (nouter F O A (V1 c K)) else nmatmul F O A (V1 c K) | [] => Err IndexErr end
        else nmatmul F O A (V1 c K)
     | _ => Err IndexErr end) = Ok (V1 n (fun i => rsum c (fun j => rmul O (X i j) (K j)))).
  Proof.
    intros N ->; cbn [shape]; destruct (Nat.eqb_spec c 1); [contradiction|].
    cbn [nmatmul]; rewrite Nat.eqb_refl; reflexivity.
  Qed.

  Lemma kron_self c A X y : c * c <> 1 -> A = M2 n (c * c) X ->
    matrix_kron F O A (V1 c y) None = Ok (V1 n (fun i => rsum (c * c) (fun j => rmul O (X i j) (rmul O (y (j / c)) (y (j mod c)))))).
  Proof. intros N E; unfold matrix_kron; cbn [nkron]; apply (kron_wide _ _ _ _ N E). Qed.
  Lemma kron_cross c d A X y w : c * d <> 1 -> A = M2 n (c * d) X ->
    matrix_kron F O A (V1 c y) (Some (V1 d w)) = Ok (V1 n (fun i => rsum (c * d) (fun j => rmul O (X i j) (rmul O (y (j / d)) (w (j mod d)))))).
  Proof. intros N E; unfold matrix_kron; cbn [nkron]; apply (kron_wide _ _ _ _ N E). Qed.
  Lemma kron_self_1 A X y : A = M2 n 1 X -> exists h, matrix_kron F O A (V1 1 y) None = Ok (M2 n 1 h).
  Proof.
    intros ->; unfold matrix_kron; cbn [nkron shape Nat.mul Nat.add Nat.eqb]; unfold nouter; cbn [nsize].
    rewrite Nat.mul_1_r; eexists; reflexivity.
  Qed.
  Lemma kron_cross_1 A X y w : A = M2 n 1 X -> exists h, matrix_kron F O A (V1 1 y) (Some (V1 1 w)) = Ok (M2 n 1 h).
  Proof.
    intros ->; unfold matrix_kron; cbn [nkron shape Nat.mul Nat.add Nat.eqb]; unfold nouter; cbn [nsize].
    rewrite Nat.mul_1_r; eexists; reflexivity.
  Qed.

  (** ** Vectors of values, also when squeezed to a number or kept as a 1x1 matrix *)
  Definition vecm (m : nat) (v : nd F) (f : nat -> F) : Prop :=
    vecl m v f \/ (m = 1 /\ exists h, v = M2 1 1 h /\ h 0 0 = f 0).
  Lemma vecm_add m a b f h : vecm m a f -> vecm m b h -> exists c, nadd F O a b = Ok c /\ vecm m c (fun i => radd O (f i) (h i)).
  Proof.
    intros [A|(Em & a' & -> & Ha)] [B|(Em' & b' & -> & Hb)].
    - destruct (vecl_add F O _ _ _ _ _ A B) as (c & E & H); exists c; split; [exact E|left; exact H].
    - subst m; destruct A as [(f' & -> & Hf)|[_ ->]]; eexists; (split; [reflexivity|]); right; (split; [reflexivity|]);
        (eexists; split; [reflexivity|]); cbn; rewrite ?Hf by lia; rewrite Hb; reflexivity.
    - subst m; destruct B as [(f' & -> & Hf)|[_ ->]]; eexists; (split; [reflexivity|]); right; (split; [reflexivity|]);
        (eexists; split; [reflexivity|]); cbn; rewrite ?Hf by lia; rewrite Ha; reflexivity.
    - eexists; split; [reflexivity|]; right; split; [exact Em|]; eexists; split; [reflexivity|]; cbn; rewrite Ha, Hb; reflexivity.
  Qed.
  Lemma vecm_spread m v f : vecm m v f -> exists h, spread F m v = Ok h /\ forall i, i < m -> h i = f i.
  Proof.
    intros [A|(-> & h & -> & Hh)]; [apply (vecl_spread _ _ _ _ A)|].
    eexists; split; [reflexivity|]; intros i Hi; replace i with 0 by lia; exact Hh.
  Qed.
  Lemma vecm_V1 m f h : (forall i, i < m -> f i = h i) -> vecm m (V1 m f) h.
  Proof. intros H; left; left; eexists; split; [reflexivity|exact H]. Qed.

  (** First-order terms. *)
  Lemma matmul_scalar_rule c M y : 0 < c -> 0 < n ->
    exists v, matmul_scalar F O (squeeze F (M2 n c M)) (V1 c y) = Ok v /\
      vecl n v (fun i => rsum c (fun j => rmul O (M i j) (y j))) /\ (1 < n -> exists f, v = V1 n f).
  Proof using RT.
    intros Hc Hn; unfold squeeze; destruct (Nat.eqb_spec n 1) as [E|N].
    - unfold matmul_scalar; destruct (Nat.eqb_spec c 1) as [->|Nc]; cbn [item].
      + cbn [Nat.eqb]; eexists; split; [reflexivity|]; split; [|lia].
        right; split; [exact E|]; rewrite rsum_one by exact RT; reflexivity.
      + destruct (Nat.eqb_spec c 1); [contradiction|]; cbn [nmatmul]; rewrite Nat.eqb_refl.
        eexists; split; [reflexivity|]; split; [|lia]; right; split; [exact E|reflexivity].
    - unfold matmul_scalar; destruct (Nat.eqb_spec c 1) as [->|Nc]; cbn [item].
      + destruct (Nat.eqb_spec n 1); [lia|]; cbn [Nat.eqb nmap].
        eexists; split; [reflexivity|]; split; [|intros _; eexists; reflexivity].
        left; eexists; split; [reflexivity|]; intros i Hi; cbn beta; rewrite rsum_one by exact RT; reflexivity.
      + destruct (Nat.eqb_spec n 1); [lia|]; destruct (Nat.eqb_spec c 1); [contradiction|]; cbn [andb nmatmul].
        rewrite Nat.eqb_refl; eexists; split; [reflexivity|]; split; [|intros _; eexists; reflexivity].
        left; eexists; split; [reflexivity|]; reflexivity.
  Qed.

  (** Quadratic terms: values when there are several columns or one variable. *)
  Lemma kron_self_vec c A X y : 0 < c -> n = 1 \/ c <> 1 -> A = M2 n (c * c) X -> exists v,
    matrix_kron F O A (V1 c y) None = Ok v /\
    vecm n v (fun i => rsum (c * c) (fun j => rmul O (X i j) (rmul O (y (j / c)) (y (j mod c))))).
  Proof using RT.
    intros Hc D E; destruct (Nat.eq_dec c 1) as [->|N].
    - assert (En : n = 1) by lia; subst A; unfold matrix_kron; cbn [nkron shape Nat.mul Nat.add Nat.eqb].
      eexists; split; [reflexivity|]; right; split; [exact En|]; unfold nouter; cbn [nsize]; rewrite En; cbn [Nat.mul Nat.add].
      eexists; split; [reflexivity|]; rewrite rsum_one by exact RT; reflexivity.
    - eexists; split; [apply (kron_self c A X y); [nia|exact E]|]; apply vecm_V1; reflexivity.
  Qed.
  Lemma kron_cross_vec c d A X y w : 0 < c -> 0 < d -> n = 1 \/ (c * d <> 1) -> A = M2 n (c * d) X -> exists v,
    matrix_kron F O A (V1 c y) (Some (V1 d w)) = Ok v /\
    vecm n v (fun i => rsum (c * d) (fun j => rmul O (X i j) (rmul O (y (j / d)) (w (j mod d))))).
  Proof using RT.
    intros Hc Hd D E; destruct (Nat.eq_dec (c * d) 1) as [E1|N].
    - assert (En : n = 1) by lia; assert (c = 1) as -> by nia; assert (d = 1) as -> by nia.
      subst A; unfold matrix_kron; cbn [nkron shape Nat.mul Nat.add Nat.eqb].
      eexists; split; [reflexivity|]; right; split; [exact En|]; unfold nouter; cbn [nsize]; rewrite En; cbn [Nat.mul Nat.add].
      eexists; split; [reflexivity|]; rewrite rsum_one by exact RT; reflexivity.
    - eexists; split; [apply (kron_cross c d A X y w); [exact N|exact E]|]; apply vecm_V1; reflexivity.
  Qed.

  Hypothesis Ly : List.length ys = n.
  Variable X U Y : nat -> nat -> nat -> F.
  Variable C : nat -> F.
  Variable d : derivatives F.
  (** Column [a * ns + b] is about the states a and b, and so on. *)
  Definition columns (c : nat) (Q : nat -> nat -> nat -> F) (i j : nat) : F := Q i (j / c) (j mod c).
  Hypothesis DX : matl n (ns * ns) (gxx d) (columns ns X).
  Hypothesis DU : matl n (k * k) (guu d) (columns k U).
  Hypothesis DY : matl n (ns * k) (gxu d) (columns k Y).
  Hypothesis DC : matl n 1 (gss d) (fun i _ => C i).

  Let half a := ensure2 F (nscale_div F O a two).
  Let order := rorder g.
  Let xx := half (nscale_div F O (gxx d) two).
  Let uu := half (nscale_div F O (guu d) two).
  Let xu := ensure2 F (gxu d).
  Let ss := half (nscale_div F O (gss d) two).


  Lemma ypart prev : exists y, (V1 (List.length dr_state) (fun j => rsub O (get prev (nth j dr_state 0)) (get ys (nth j dr_state 0)))) = V1 ns y /\
    forall j, j < ns -> y j = rsub O (get prev (state_at g j)) (get ys (state_at g j)).
  Proof using W Ly.
    eexists; split; [subst dr_state; rewrite map_length; destruct W as (_ & -> & _); reflexivity|].
    intros j Hj; cbn beta; unfold dr_state; rewrite (dr_state_nth F g W j Hj); reflexivity.
  Qed.

  Lemma const_vec : exists c, nadd F O (squeeze F ss) (V1 (List.length order) (fun i => get ys (nth i order 0))) = Ok c /\
    vecm n c (fun i => radd O (rmul O quarter (C i)) (get ys (var_at g i))) /\ (1 < n -> exists f, c = V1 n f).
  Proof using W DC FT Two Ly.
    destruct W as (P & _).
    subst order; rewrite (perm_length _ _ P); change (rn g) with n.
    destruct (matl_half _ _ _ _ (matl_half _ _ _ _ DC)) as (c & E & H).
    subst ss half; cbn beta; rewrite E; cbn [squeeze Nat.eqb].
    destruct (Nat.eqb_spec n 1) as [E1|N].
    - unfold nadd, elementwise, nmap; eexists; split; [reflexivity|]; split; [|lia].
      apply vecm_V1; intros i Hi; cbn beta; replace i with 0 by lia; rewrite H by lia; rewrite quarter_eq; reflexivity.
    - unfold nadd, elementwise; rewrite axis_same; eexists; split; [reflexivity|]; split; [|intros _; eexists; reflexivity].
      apply vecm_V1; intros i Hi; cbn beta; rewrite !at_lt by exact Hi; rewrite H by lia; rewrite quarter_eq; reflexivity.
  Qed.

  Definition rhs2 (x : nat -> F) (u : nat -> F) (i : nat) : F :=
    radd O (radd O (radd O
        (rsum ns (fun j => rmul O (ry g i j) (x (state_at g j))))
        (rsum k (fun l => rmul O (ru g i l) (u l))))
        (rmul O quarter (radd O (radd O
          (rsum ns (fun a => rsum ns (fun b => rmul O (X i a b) (rmul O (x (state_at g a)) (x (state_at g b))))))
          (rsum k (fun l => rsum k (fun m => rmul O (U i l m) (rmul O (u l) (u m))))))
          (C i))))
        (rsum ns (fun a => rsum k (fun l => rmul O (Y i a l) (rmul O (x (state_at g a)) (u l))))).

  Lemma columns_at c (Q : nat -> nat -> nat -> F) i a b : b < c -> columns c Q i (a * c + b) = Q i a b.
  Proof.
    intros Hb; unfold columns.
    rewrite Nat.div_add_l by lia; rewrite (Nat.div_small b c Hb), Nat.add_0_r.
    rewrite Nat.add_comm, Nat.mod_add, Nat.mod_small by lia; reflexivity.
  Qed.

  Definition step_ c t prev u T := step2 F O n ys gy gu xx xu uu c order dr_state (matrix_row F (M2 T k u) t) prev.

  (** With several states and several shocks, or one variable, one step is the rule with
      quarters. *)
  Lemma step2_ok u T t prev c : n = 1 \/ (1 < ns /\ 1 < k) ->
    nadd F O (squeeze F ss) (V1 (List.length order) (fun i => get ys (nth i order 0))) = Ok c ->
    exists r, step_ c t prev u T = Ok r /\ List.length r = n /\
      forall i, i < n -> get r (var_at g i) = radd O (get ys (var_at g i)) (rhs2 (fun v => rsub O (get prev v) (get ys v)) (u t) i).
  Proof using W DX DU DY DC FT Two Ly.
    intros Hwide Ec.
    pose proof (state_le F g W) as Hle.
    assert (Hpos : 0 < n /\ 0 < ns /\ 0 < k) by (destruct W as (_ & _ & _ & _ & H); exact H).
    destruct const_vec as (c' & Ec' & Hc & _); rewrite Ec in Ec'; injection Ec' as <-; clear Ec.
    unfold step_, step2; destruct (ypart prev) as (y & -> & Hy); cbn [matrix_row].
    destruct (matmul_scalar_rule ns (ry g) y ltac:(lia) ltac:(lia)) as (v1 & E1 & H1 & _); fold gy in E1; rewrite E1; cbn [bind].
    destruct (matmul_scalar_rule k (ru g) (u t) ltac:(lia) ltac:(lia)) as (v2 & E2 & H2 & _); fold gu in E2; rewrite E2; cbn [bind].
    destruct (matl_half _ _ _ _ (matl_half _ _ _ _ DX)) as (X' & EX & HX).
    destruct (matl_half _ _ _ _ (matl_half _ _ _ _ DU)) as (U' & EU & HU).
    destruct DY as (Y' & EY & HY).
    destruct (kron_self_vec ns xx X' y ltac:(lia) ltac:(lia) EX) as (v3 & E3 & H3); rewrite E3; cbn [bind].
    destruct (kron_self_vec k uu U' (u t) ltac:(lia) ltac:(lia) EU) as (v4 & E4 & H4); rewrite E4; cbn [bind].
    destruct (kron_cross_vec ns k xu Y' y (u t) ltac:(lia) ltac:(lia) ltac:(nia) EY) as (v5 & E5 & H5); rewrite E5; cbn [bind].
    destruct (vecm_add _ _ _ _ _ Hc (or_introl H1)) as (s1 & S1 & K1); rewrite S1; cbn [bind].
    destruct (vecm_add _ _ _ _ _ K1 (or_introl H2)) as (s2 & S2 & K2); rewrite S2; cbn [bind].
    destruct (vecm_add _ _ _ _ _ K2 H3) as (s3 & S3 & K3); rewrite S3; cbn [bind].
    destruct (vecm_add _ _ _ _ _ K3 H4) as (s4 & S4 & K4); rewrite S4; cbn [bind].
    destruct (vecm_add _ _ _ _ _ K4 H5) as (s5 & S5 & K5); rewrite S5; cbn [bind].
    destruct W as (P & _).
    destruct (vecm_spread _ _ _ K5) as (hh & Sp & Hh).
    destruct (assign_ok F O n order _ _ P Sp) as (r & Er & Lr & Hr).
    exists r; split; [exact Er|]; split; [exact Lr|].
    intros i Hi; unfold var_at; rewrite Hr, Hh by exact Hi; cbn beta; clear S1 S2 S3 S4 S5 K1 K2 K3 K4 K5 Sp Er Hr Hh.
    assert (QX : rsum (ns * ns) (fun j => rmul O (X' i j) (rmul O (y (j / ns)) (y (j mod ns)))) =
      rmul O quarter (rsum ns (fun a => rsum ns (fun b => rmul O (X i a b) (rmul O (y a) (y b)))))).
    { rewrite rsum_kron, <- rsum_mul_l by exact RT; apply rsum_ext; intros a Ha.
      rewrite <- rsum_mul_l by exact RT; apply rsum_ext; intros b Hb.
      rewrite HX by (try assumption; nia); rewrite quarter_eq, columns_at by exact Hb; ring. }
    assert (QU : rsum (k * k) (fun j => rmul O (U' i j) (rmul O (u t (j / k)) (u t (j mod k)))) =
      rmul O quarter (rsum k (fun a => rsum k (fun b => rmul O (U i a b) (rmul O (u t a) (u t b)))))).
    { rewrite rsum_kron, <- rsum_mul_l by exact RT; apply rsum_ext; intros a Ha.
      rewrite <- rsum_mul_l by exact RT; apply rsum_ext; intros b Hb.
      rewrite HU by (try assumption; nia); rewrite quarter_eq, columns_at by exact Hb; ring. }
    assert (QY : rsum (ns * k) (fun j => rmul O (Y' i j) (rmul O (y (j / k)) (u t (j mod k)))) =
      rsum ns (fun a => rsum k (fun b => rmul O (Y i a b) (rmul O (y a) (u t b))))).
    { rewrite rsum_kron; apply rsum_ext; intros a Ha; apply rsum_ext; intros b Hb.
      rewrite HY by (try assumption; nia); rewrite columns_at by exact Hb; ring. }
    rewrite QX, QU, QY; unfold rhs2, var_at.
    assert (A1 : rsum ns (fun j => rmul O (ry g i j) (y j)) = rsum ns (fun j => rmul O (ry g i j) (rsub O (get prev (state_at g j)) (get ys (state_at g j))))).
    { apply rsum_ext; intros j Hj; rewrite Hy by exact Hj; reflexivity. }
    assert (A2 : rsum ns (fun a => rsum ns (fun b => rmul O (X i a b) (rmul O (y a) (y b)))) =
      rsum ns (fun a => rsum ns (fun b => rmul O (X i a b) (rmul O (rsub O (get prev (state_at g a)) (get ys (state_at g a))) (rsub O (get prev (state_at g b)) (get ys (state_at g b))))))).
    { apply rsum_ext; intros a Ha; apply rsum_ext; intros b Hb; rewrite !Hy by assumption; reflexivity. }
    assert (A3 : rsum ns (fun a => rsum k (fun b => rmul O (Y i a b) (rmul O (y a) (u t b)))) =
      rsum ns (fun a => rsum k (fun b => rmul O (Y i a b) (rmul O (rsub O (get prev (state_at g a)) (get ys (state_at g a))) (u t b))))).
    { apply rsum_ext; intros a Ha; apply rsum_ext; intros b Hb; rewrite !Hy by assumption; reflexivity. }
    rewrite A1, A2, A3; unfold order; ring.
  Qed.

  (** With one state or one shock (and several variables) every step fails. *)
  Lemma axis_1l a : axis 1 a = Some a.
  Proof. unfold axis; destruct (Nat.eqb_spec 1 a) as [<-|]; reflexivity. Qed.
  Lemma axis_1r a : axis a 1 = Some a.
  Proof. unfold axis; destruct (Nat.eqb_spec a 1) as [->|]; [reflexivity|]; cbn [Nat.eqb]; destruct a as [|[|a]]; reflexivity. Qed.
  Lemma add_VM a f r c h : 1 < a -> r = a -> c = 1 -> exists q, nadd F O (V1 a f) (M2 r c h) = Ok (M2 a a q).
  Proof.
    intros Ha -> ->; unfold nadd, elementwise; cbn [rows cols]; rewrite axis_1l, axis_1r; eexists; reflexivity.
  Qed.
  Lemma add_MV a f h : 1 < a -> exists q, nadd F O (M2 a a h) (V1 a f) = Ok (M2 a a q).
  Proof.
    intros Ha; unfold nadd, elementwise; cbn [rows cols]; rewrite axis_same, axis_1r; eexists; reflexivity.
  Qed.
  Lemma add_MM a f h : 1 < a -> exists q, nadd F O (M2 a a h) (M2 a 1 f) = Ok (M2 a a q).
  Proof.
    intros Ha; unfold nadd, elementwise; cbn [rows cols]; rewrite axis_same, axis_1r; eexists; reflexivity.
  Qed.
  Lemma add_VV a f h : exists q, nadd F O (V1 a f) (V1 a h) = Ok (V1 a q).
  Proof. unfold nadd, elementwise; rewrite axis_same; eexists; reflexivity. Qed.

  Lemma step2_fails u T t prev c : 1 < n -> ns = 1 \/ k = 1 ->
    nadd F O (squeeze F ss) (V1 (List.length order) (fun i => get ys (nth i order 0))) = Ok c ->
    step_ c t prev u T = Err ValueErr.
  Proof using W DX DU DY DC FT Two Ly.
    intros Hn Hone Ec.
    assert (Hpos : 0 < n /\ 0 < ns /\ 0 < k) by (destruct W as (_ & _ & _ & _ & H); exact H).
    destruct const_vec as (c0 & Ec' & _ & Vc); rewrite Ec in Ec'; injection Ec' as <-; clear Ec.
    destruct (Vc Hn) as (c' & ->).
    unfold step_, step2; destruct (ypart prev) as (y & -> & _); cbn [matrix_row].
    destruct (matmul_scalar_rule ns (ry g) y ltac:(lia) ltac:(lia)) as (w1 & E1 & _ & W1); destruct (W1 Hn) as (v1 & ->); fold gy in E1; rewrite E1; cbn [bind].
    destruct (matmul_scalar_rule k (ru g) (u t) ltac:(lia) ltac:(lia)) as (w2 & E2 & _ & W2); destruct (W2 Hn) as (v2 & ->); fold gu in E2; rewrite E2; cbn [bind].
    destruct (matl_half _ _ _ _ (matl_half _ _ _ _ DX)) as (X' & EX & _).
    destruct (matl_half _ _ _ _ (matl_half _ _ _ _ DU)) as (U' & EU & _).
    destruct DY as (Y' & EY & _).
    destruct (add_VV n c' v1) as (q1 & Q1); destruct (add_VV n q1 v2) as (q2 & Q2).
    assert (KX : (ns = 1 /\ exists h, matrix_kron F O xx (V1 ns y) None = Ok (M2 n 1 h)) \/
                 (ns <> 1 /\ exists h, matrix_kron F O xx (V1 ns y) None = Ok (V1 n h))).
    { destruct (Nat.eq_dec ns 1) as [E|N]; [left|right]; (split; [assumption|]).
      - rewrite E in *; apply (kron_self_1 xx X' y EX).
      - eexists; apply (kron_self ns xx X' y); [nia|exact EX]. }
    assert (KU : (k = 1 /\ exists h, matrix_kron F O uu (V1 k (u t)) None = Ok (M2 n 1 h)) \/
                 (k <> 1 /\ exists h, matrix_kron F O uu (V1 k (u t)) None = Ok (V1 n h))).
    { destruct (Nat.eq_dec k 1) as [E|N]; [left|right]; (split; [assumption|]).
      - rewrite E in *; apply (kron_self_1 uu U' (u t) EU).
      - eexists; apply (kron_self k uu U' (u t)); [nia|exact EU]. }
    assert (KY : exists h, matrix_kron F O xu (V1 ns y) (Some (V1 k (u t))) = Ok (M2 n 1 h) \/
                           matrix_kron F O xu (V1 ns y) (Some (V1 k (u t))) = Ok (V1 n (h 0))).
    { destruct (Nat.eq_dec ns 1) as [E|N]; destruct (Nat.eq_dec k 1) as [E'|N'].
      - rewrite E, E' in *; destruct (kron_cross_1 xu Y' y (u t) EY) as (h & H); exists h; left; exact H.
      - eexists (fun _ => _); right; apply (kron_cross ns k xu Y' y (u t)); [nia|exact EY].
      - eexists (fun _ => _); right; apply (kron_cross ns k xu Y' y (u t)); [nia|exact EY].
      - eexists (fun _ => _); right; apply (kron_cross ns k xu Y' y (u t)); [nia|exact EY]. }
    assert (Fail : forall q, assign F O n order (M2 n n q) = Err ValueErr).
    { intros q; unfold assign, spread; destruct (Nat.eqb_spec n 1); [lia|reflexivity]. }
    destruct KX as [[E (h & KX)]|[N (h & KX)]]; rewrite KX; cbn [bind];
      destruct KU as [[E' (h' & KU)]|[N' (h' & KU)]]; rewrite KU; cbn [bind]; try (exfalso; lia);
      destruct KY as (h'' & [KY|KY]); rewrite KY; cbn [bind]; rewrite Q1; cbn [bind]; rewrite Q2; cbn [bind].
    1,2: destruct (add_VM n q2 n 1 h Hn eq_refl eq_refl) as (q3 & Q3); rewrite Q3; cbn [bind];
      destruct (add_MM n h' q3 Hn) as (q4 & Q4); rewrite Q4; cbn [bind].
    3,4: destruct (add_VM n q2 n 1 h Hn eq_refl eq_refl) as (q3 & Q3); rewrite Q3; cbn [bind];
      destruct (add_MV n h' q3 Hn) as (q4 & Q4); rewrite Q4; cbn [bind].
    5,6: destruct (add_VV n q2 h) as (q3 & Q3); rewrite Q3; cbn [bind];
      destruct (add_VM n q3 n 1 h' Hn eq_refl eq_refl) as (q4 & Q4); rewrite Q4; cbn [bind].
    all: first [destruct (add_MM n h'' q4 Hn) as (q5 & Q5); rewrite Q5 | destruct (add_MV n (h'' 0) q4 Hn) as (q5 & Q5); rewrite Q5]; cbn [bind]; apply Fail.
  Qed.

  (** ** The whole simulation *)

  Let sim2 T u i0 := simulate_second F O ys gy gu (nscale_div F O (gxx d) two) (gxu d) (nscale_div F O (guu d) two)
    (nscale_div F O (gss d) two) order (rstate g) (M2 T k u) (V1 n i0).

  Theorem simulate_second_ok T u i0 : n = 1 \/ (1 < ns /\ 1 < k) -> 0 < T ->
    exists p, sim2 T u i0 = Ok p /\ table F T n p /\
      let x t v := rsub O (value p t v) (get ys v) in
      starts F g (fun v => rsub O (i0 v) (get ys v)) x /\ obeys2 F O quarter g X U Y C T u x.
  Proof using W DX DU DY DC FT Two Ly.
    intros Hwide HT; unfold sim2, simulate_second; rewrite Ly.
    unfold spread; rewrite Nat.eqb_refl; cbn [orb bind rows].
    destruct (Nat.eqb_spec T 0) as [|_]; [lia|].
    pose proof (picks F g W) as Hp; fold order in Hp; rewrite Hp; cbn [bind]; fold dr_state.
    destruct const_vec as (c & Ec & _ & _); pose proof Ec as Ec2; unfold ss, half in Ec2; rewrite Ec2; cbn [bind].
    set (first := map _ (seq 0 n)).
    destruct (walk_ok F (fun t prev => step_ c t prev u T)
                (fun r => List.length r = n)) with (left := T - 1) (t := 0) (prev := first) as (rs & E & L & A & H0 & Hstep); unfold row in *.
    - intros t r _; destruct (step2_ok u T t r c Hwide Ec) as (r' & E & L & _); eauto.
    - subst first; rewrite map_length, seq_length; reflexivity.
    - exists rs; split; [exact E|]; split; [split; [etransitivity; [exact L|lia]|exact A]|]; cbn zeta.
      split.
      + intros v Hv; unfold SimSpec.value; rewrite H0; subst first.
        fold (get (map (fun i => i0 (at_ n i)) (seq 0 n)) v).
        rewrite get_map_seq by exact Hv; rewrite at_lt by exact Hv; reflexivity.
      + intros t i Ht Hi.
        specialize (Hstep t ltac:(lia)); change (0 + t) with t in Hstep.
        destruct (step2_ok u T t (nth t rs []) c Hwide Ec) as (r' & E' & _ & Hr'); rewrite Hstep in E'; injection E' as E'.
        unfold SimSpec.value; fold (get (nth (S t) rs []) (var_at g i)); rewrite E', Hr' by exact Hi.
        unfold rhs2, quadratic; change (Sum F O) with rsum.
        unfold SimSpec.value, Sim.get, ns, k; ring.
  Qed.

  (** The other shapes cannot be simulated beyond the first period. *)
  Theorem simulate_second_fails T u i0 : 1 < n -> ns = 1 \/ k = 1 -> 1 < T -> sim2 T u i0 = Err ValueErr.
  Proof using W DX DU DY DC FT Two Ly.
    intros Hn Hone HT; unfold sim2, simulate_second; rewrite Ly.
    unfold spread; rewrite Nat.eqb_refl; cbn [orb bind rows].
    destruct (Nat.eqb_spec T 0) as [|_]; [lia|].
    pose proof (picks F g W) as Hp; fold order in Hp; rewrite Hp; cbn [bind]; fold dr_state.
    destruct const_vec as (c & Ec & _ & _); pose proof Ec as Ec2; unfold ss, half in Ec2; rewrite Ec2; cbn [bind].
    destruct T as [|[|T]]; try lia; cbn [Nat.sub walk].
    pose proof (step2_fails u (S (S T)) 0) as Hf; unfold step_ in Hf; rewrite (Hf _ c Hn Hone Ec); reflexivity.
  Qed.
End SimProofs2.
