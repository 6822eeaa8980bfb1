(** The second-order solver, step by step. *)
From Verif Require Import Base Nd NdProofs Mat MatProofs SimSpec SimProofs2 Indexing Moments FirstOrder FirstOrderSpec Sylvester SylvesterSpec SylvesterProofs SylvesterProofs2
  SecondOrder SecondOrderProofs2 SecondOrderProofs4.

Section Run.
  Variable F : Type.
  Variable O : rops F.
  Hypothesis RT : is_ring O.
  Let RT' : ring_theory (r0 O) (r1 O) (radd O) (rmul O) (rsub O) (ropp O) eq := RT.
  Add Ring RunRing : RT'.
  Variable eqb : F -> F -> bool.
  Variable qz : nat -> mat F -> mat F -> res (mat F * mat F * mat F * mat F).
  Variable solve : nat -> nat -> mat F -> mat F -> res (mat F).
  Variable nan : F.
  Local Notation rsum := (rsum F O).
  Local Notation meq := (meq F).
  Local Notation isM := (isM F).
  Local Notation isV := (isV F).
  Local Notation okM := (okM F).
  Local Notation okV := (okV F).

  (** The indices of a model. *)
  Variable x : indexes.
  Variables n ns nt nf ne N : nat.
  Variables c0 cp d npf : list nat.
  Hypothesis Hn : n_endog x = n.
  Hypothesis Hnt : n_state x = nt.
  Hypothesis Hns : n_static x = ns.
  Hypothesis Hne : n_exog x = ne.
  Hypothesis P0 : present (row_0 (dr x)) = repeat true n.
  Hypothesis Pp : present (row_p (dr x)) = repeat false (n - nf) ++ repeat true nf.
  Hypothesis C0 : not_nan (row_0 (dr x)) = c0.
  Hypothesis Cp : not_nan (row_p (dr x)) = cp.
  Hypothesis Lc0 : List.length c0 = n.
  Hypothesis Lcp : List.length cp = nf.
  Hypothesis Bc0 : forall c, In c c0 -> c < N.
  Hypothesis Bcp : forall c, In c cp -> c < N.
  Hypothesis Ed : dr_columns x = d.
  Hypothesis Ld : List.length d = N.
  Hypothesis Bd : forall c, In c d -> c < N.
  Hypothesis Ew : width x = N.
  Hypothesis Epf : timed is_pure_forward x 1%Z = Ok npf.
  Hypothesis Lpf : (ns + nt + List.length npf = n)%nat.
  Hypothesis Lnf : nf <= n.
  Hypothesis EN : N = (nt + n + nf + ne)%nat.
  Hypothesis Pt : 0 < nt.
  Hypothesis Pe : 0 < ne.
  Variables J Hm V G U : mat F.
  Definition jac_ : nd F := M2 n N J.
  Definition hess : nd F := M2 n (N * N) Hm.
  Definition sigma : nd F := M2 ne ne V.
  Definition gy : nd F := squeeze F (M2 n nt G).
  Definition gu : nd F := squeeze F (M2 n ne U).

  Definition jc (i j : nat) : F := J i (nth j c0 0).
  Definition jf (i f : nat) : F := J i (nth f cp 0).
  Definition fore (f : nat) : nat := n - nf + f.
  Definition Gs : mat F := fun c a => G (ns + c) a.
  Definition Us : mat F := fun c l => U (ns + c) l.
  Definition Am (i j : nat) : F :=
    radd O (jc i j) (if (ns <=? j) && (j <? ns + nt) then rsum nf (fun f => rmul O (jf i f) (G (fore f) (j - ns))) else r0 O).
  Definition Cm (i j : nat) : F := if j <? n - nf then r0 O else jf i (j - (n - nf)).
  Definition Gf : mat F := fun f a => G (fore f) a.
  Definition zx (p a : nat) : F :=
    if p <? nt then mid F O p a else if p <? nt + n then G (p - nt) a
    else if p <? nt + n + nf then rsum nt (fun c => rmul O (G (fore (p - nt - n)) c) (G (ns + c) a)) else r0 O.
  Definition zu (p l : nat) : F :=
    if p <? nt then r0 O else if p <? nt + n then U (p - nt) l
    else if p <? nt + n + nf then rsum nt (fun c => rmul O (G (fore (p - nt - n)) c) (U (ns + c) l)) else mid F O (p - nt - n - nf) l.

  (** ** Indexing *)
  Lemma len0 : List.length (present (row_0 (dr x))) = n.
  Proof. rewrite P0; apply repeat_length. Qed.
  Lemma lenp : List.length (present (row_p (dr x))) = n.
  Proof. rewrite Pp, app_length, !repeat_length; lia. Qed.
  Lemma count0 : count_true (present (row_0 (dr x))) = n.
  Proof. rewrite P0, count_repeat; reflexivity. Qed.
  Lemma countp : count_true (present (row_p (dr x))) = nf.
  Proof. rewrite Pp, count_app, !count_repeat; reflexivity. Qed.
  Lemma all_now c f : exists f', rows_where F (present (row_0 (dr x))) (cv F n c f) = Ok (cv F n c f') /\ meq n c f' f.
  Proof.
    eexists; split; [rewrite rows_where_cv by exact len0; rewrite count0; reflexivity|].
    intros i j Hi Hj; rewrite P0, where_true, seq_nth by exact Hi; reflexivity.
  Qed.
  Lemma all_lead c f : exists f', rows_where F (present (row_p (dr x))) (cv F n c f) = Ok (cv F nf c f') /\ meq nf c f' (fun i j => f (fore i) j).
  Proof.
    eexists; split; [rewrite rows_where_cv by exact lenp; rewrite countp; reflexivity|].
    intros i j Hi Hj; rewrite Pp, where_app, where_false, where_true, repeat_length; cbn [app]; rewrite seq_nth by exact Hi; reflexivity.
  Qed.
  Lemma lead_M c f : exists f', rows_where F (present (row_p (dr x))) (M2 n c f) = Ok (M2 nf c f') /\ meq nf c f' (fun i j => f (fore i) j).
  Proof.
    eexists; split; [rewrite rows_where_M by exact lenp; rewrite countp; reflexivity|].
    intros i j Hi Hj; rewrite Pp, where_app, where_false, where_true, repeat_length; cbn [app]; rewrite seq_nth by exact Hi; reflexivity.
  Qed.
  Lemma take0 : take_cols F (not_nan (row_0 (dr x))) jac_ = Ok (M2 n n jc).
  Proof. unfold jac_; rewrite take_cols_M by (rewrite C0; exact Bc0); rewrite C0, Lc0; reflexivity. Qed.
  Lemma takep : take_cols F (not_nan (row_p (dr x))) jac_ = Ok (M2 n nf jf).
  Proof. unfold jac_; rewrite take_cols_M by (rewrite Cp; exact Bcp); rewrite Cp, Lcp; reflexivity. Qed.
  Lemma firstn_repeat (b : bool) m j : j <= m -> firstn j (repeat b m) = repeat b j.
  Proof. revert j; induction m as [|m IH]; intros [|j] Hj; cbn; try reflexivity; [lia|]; rewrite IH by lia; reflexivity. Qed.
  Lemma nth_repeat' (b : bool) m j : j < m -> nth j (repeat b m) false = b.
  Proof. revert j; induction m as [|m IH]; intros [|j] Hj; cbn; try lia; [reflexivity|apply IH; lia]. Qed.
  Lemma put_now r f : okM (put_where F (present (row_0 (dr x))) (M2 r n f) (zeros F O r n)) r n f.
  Proof.
    unfold zeros; cbn [put_where]; rewrite len0, Nat.eqb_refl; cbn [negb]; cbn [fit2]; rewrite count0, !Nat.eqb_refl; cbn [orb andb bind].
    eexists; split; [reflexivity|]; eexists; split; [reflexivity|]; intros i j Hi Hj.
    rewrite P0, nth_repeat', firstn_repeat, count_repeat by lia; rewrite !at_below by assumption; reflexivity.
  Qed.
  Lemma put_last_M r f : 0 < nf -> okM (put_last F nf (M2 r nf f) (zeros F O r n)) r n (fun i j => if j <? n - nf then r0 O else f i (j - (n - nf))).
  Proof.
    intros Hf; unfold zeros; cbn [put_last]; rewrite (proj2 (Nat.eqb_neq nf 0)) by lia; cbn [fit2].
    replace (n - (n - nf)) with nf by lia; rewrite !Nat.eqb_refl; cbn [orb andb bind].
    eexists; split; [reflexivity|]; eexists; split; [reflexivity|]; intros i j Hi Hj.
    destruct (Nat.ltb_spec j (n - nf)); [reflexivity|]; rewrite !at_below by lia; reflexivity.
  Qed.
  Lemma put_last_none r f : 0 < n -> put_last F 0 (M2 r 0 f) (zeros F O r n) = Err ValueErr.
  Proof.
    intros Hf; unfold zeros; cbn [put_last Nat.eqb fit2]; rewrite Nat.sub_0_r.
    destruct n as [|n']; [lia|]; cbn [Nat.eqb orb]; rewrite andb_false_r; reflexivity.
  Qed.
  Lemma pairs_M l : (forall c, In c l -> c < N) ->
    okM (pairs_of F N l hess) n (List.length l * List.length l) (fun i P => Hm i (nth (P / List.length l) l 0 * N + nth (P mod List.length l) l 0)).
  Proof.
    intros Hl; unfold pairs_of, hess.
    assert (Lp : forall l' : list nat, List.length (flat_map (fun a => map (fun b => a * N + b) l) l') = (List.length l' * List.length l)%nat).
    { induction l' as [|a l' IH]; [reflexivity|]; cbn [flat_map]; rewrite app_length, map_length, IH; cbn; lia. }
    rewrite take_cols_M.
    - rewrite Lp; eexists; split; [reflexivity|]; eexists; split; [reflexivity|]; intros i P Hi HP; f_equal.
      assert (Q : forall l' P, P < List.length l' * List.length l ->
        nth P (flat_map (fun a => map (fun b => a * N + b) l) l') 0 = nth (P / List.length l) l' 0 * N + nth (P mod List.length l) l 0).
      { clear; induction l' as [|a l' IH]; intros P HP; [cbn in HP; lia|]; cbn [flat_map].
        assert (0 < List.length l) by (destruct l; cbn in *; lia).
        destruct (Nat.lt_ge_cases P (List.length l)) as [A|A].
        - rewrite app_nth1 by (rewrite map_length; exact A); rewrite Nat.div_small, Nat.mod_small by exact A; cbn [nth].
          rewrite (nth_indep _ 0 (a * N + 0)) by (rewrite map_length; exact A); apply (map_nth (fun b => a * N + b)).
        - rewrite app_nth2 by (rewrite map_length; exact A); rewrite map_length, IH by (cbn in HP; lia).
          replace P with (P - List.length l + 1 * List.length l) at 3 4 by lia; rewrite Nat.div_add, Nat.mod_add by lia; rewrite Nat.add_1_r; reflexivity. }
      apply Q, HP.
    - intros q Hq; apply in_flat_map in Hq as (a & Ia & Hq); apply in_map_iff in Hq as (b & <- & Ib).
      apply Hl in Ia, Ib; nia.
  Qed.

  (** ** More than one variable *)
  Section Big.
    Hypothesis n2 : 1 < n.
    Lemma gy_is : gy = cv F n nt G. Proof. apply squeeze_cv; lia. Qed.
    Lemma gu_is : gu = cv F n ne U. Proof. apply squeeze_cv; lia. Qed.
    Lemma in_states i : In i (seq ns nt) -> i < n.
    Proof. intros H; apply in_seq in H; lia. Qed.
    Lemma place_seq s l j : place (seq s l) j = if (s <=? j) && (j <? s + l) then Some (j - s) else None.
    Proof.
      revert s; induction l as [|l IH]; intros s; cbn [seq place].
      - destruct (Nat.leb_spec s j), (Nat.ltb_spec j (s + 0)); cbn; try reflexivity; lia.
      - rewrite IH; destruct (Nat.eqb_spec s j) as [->|Nj].
        + rewrite (proj2 (Nat.leb_le j j)), (proj2 (Nat.ltb_lt j (j + S l))) by lia; cbn [andb]; f_equal; lia.
        + destruct (Nat.leb_spec (S s) j), (Nat.leb_spec s j), (Nat.ltb_spec j (S s + l)), (Nat.ltb_spec j (s + S l)); cbn [andb option_map]; try reflexivity; try lia; f_equal; lia.
    Qed.
    Lemma tloc_many : nt <> 1 -> tloc x = Many (seq ns nt).
    Proof. intros H; unfold tloc; rewrite Hns, Hnt; destruct nt as [|[|m]]; [reflexivity|lia|reflexivity]. Qed.
    Lemma tloc_one : nt = 1 -> tloc x = One ns.
    Proof. intros H; unfold tloc; rewrite Hns, Hnt, H; reflexivity. Qed.
    Lemma gs_many : nt <> 1 -> exists f, at_loc F (tloc x) gy = Ok (M2 nt nt f) /\ meq nt nt f Gs.
    Proof.
      intros H; rewrite tloc_many, gy_is by exact H; rewrite at_many by (exact H || exact in_states); rewrite seq_length.
      eexists; split; [reflexivity|]; intros i j Hi Hj; rewrite seq_nth by exact Hi; reflexivity.
    Qed.
    Lemma us_many : nt <> 1 -> ne <> 1 -> exists f, at_loc F (tloc x) gu = Ok (M2 nt ne f) /\ meq nt ne f Us.
    Proof.
      intros H H'; rewrite tloc_many, gu_is by exact H; rewrite at_many by (exact H' || exact in_states); rewrite seq_length.
      eexists; split; [reflexivity|]; intros i j Hi Hj; rewrite seq_nth by exact Hi; reflexivity.
    Qed.
    Lemma gs_one : nt = 1 -> at_loc F (tloc x) gy = Ok (S0 (G ns 0)).
    Proof.
      intros H; rewrite tloc_one, gy_is, H by exact H; unfold cv; cbn [Nat.eqb at_loc]; rewrite (proj2 (Nat.ltb_lt ns n)) by lia; reflexivity.
    Qed.
    Lemma us_one : nt = 1 -> at_loc F (tloc x) gu = Ok (if ne =? 1 then S0 (U ns 0) else V1 ne (U ns)).
    Proof.
      intros H; rewrite tloc_one, gu_is by exact H; unfold cv; destruct (ne =? 1); cbn [at_loc]; rewrite (proj2 (Nat.ltb_lt ns n)) by lia; reflexivity.
    Qed.
    (** What the states do, read as matrices. *)
    Lemma gs_2d : exists a, at_loc F (tloc x) gy = Ok a /\ isM (ensure2 F a) nt nt Gs.
    Proof.
      destruct (Nat.eq_dec nt 1) as [H|H].
      - eexists; split; [apply gs_one, H|]; rewrite H; eexists; split; [reflexivity|]; intros i j Hi Hj; unfold Gs; replace i with 0 by lia; replace j with 0 by lia; rewrite Nat.add_0_r; reflexivity.
      - destruct (gs_many H) as (f & E & Ef); exists (M2 nt nt f); split; [exact E|]; exists f; split; [reflexivity|exact Ef].
    Qed.
    Lemma us_2d : nt = 1 \/ ne <> 1 -> exists a, at_loc F (tloc x) gu = Ok a /\ isM (row_oriented F (ensure2 F a)) nt ne Us.
    Proof.
      intros Hs; destruct (Nat.eq_dec nt 1) as [H|H].
      - eexists; split; [apply us_one, H|]; rewrite H; destruct (Nat.eqb_spec ne 1) as [H'|H']; cbn [ensure2 row_oriented Nat.eqb ntrans].
        + rewrite H'; eexists; split; [reflexivity|]; intros i j Hi Hj; unfold Us; replace i with 0 by lia; replace j with 0 by lia; rewrite Nat.add_0_r; reflexivity.
        + eexists; split; [reflexivity|]; intros i j Hi Hj; unfold Us; replace i with 0 by lia; rewrite Nat.add_0_r; reflexivity.
      - destruct Hs as [Hs|Hs]; [contradiction|]; destruct (us_many H Hs) as (f & E & Ef); exists (M2 nt ne f); split; [exact E|].
        cbn [ensure2 row_oriented]; rewrite (proj2 (Nat.eqb_neq ne 1) Hs); exists f; split; [reflexivity|exact Ef].
    Qed.

    (** ** The system *)
    Hypothesis f1 : 0 < nf.
    Hypothesis tf : nt <> 1 \/ nf <> 1.
    Lemma setup_is : exists A C D, setup_system F O x gy jac_ = Ok (A, identity F O (nt * nt), C, D) /\ isM A n n Am /\ isM C n n Cm /\
      sized F D (nt * nt) (nt * nt) /\ meq (nt * nt) (nt * nt) (entries F D) (fun p q => rmul O (Gs (q / nt) (p / nt)) (Gs (q mod nt) (p mod nt))).
    Proof.
      unfold setup_system; rewrite take0, takep; cbn [bind]; rewrite Hn.
      destruct (put_now n jc) as (A0 & -> & a0 & -> & E0); cbn [bind].
      rewrite gy_is; destruct (all_lead nt G) as (gf & -> & Egf); cbn [bind].
      destruct (matmul_scalar_cv F O (M2 n nf jf) (cv F nf nt gf) n nf nt jf Gf) as (up & -> & u & -> & Eu);
        [exists jf; split; [reflexivity|intros i j _ _; reflexivity]|exists gf; split; [reflexivity|exact Egf]|lia|lia|]; cbn [bind].
      assert (KA : okM (add_at F O (tloc x) (cv F n nt u) (M2 n n a0)) n n Am).
      { destruct (Nat.eq_dec nt 1) as [H|H].
        - rewrite tloc_one by exact H; unfold cv; rewrite H; cbn [Nat.eqb add_at column]; rewrite (proj2 (Nat.ltb_lt ns n)) by lia; cbn [bind].
          unfold nadd; cbn [elementwise]; rewrite axis_same; cbn [bind fit1]; rewrite Nat.eqb_refl; cbn [orb bind].
          eexists; split; [reflexivity|]; eexists; split; [reflexivity|]; intros i j Hi Hj; unfold Am; rewrite H.
          destruct (Nat.eqb_spec j ns) as [->|Nj].
          + rewrite !(at_below n i Hi); rewrite (proj2 (Nat.leb_le ns ns)), (proj2 (Nat.ltb_lt ns (ns + 1))) by lia; cbn [andb].
            rewrite E0, Eu by lia; unfold mmul, Gf; rewrite Nat.sub_diag; reflexivity.
          + rewrite E0 by assumption; destruct (Nat.leb_spec ns j), (Nat.ltb_spec j (ns + 1)); cbn [andb]; try lia; ring.
        - rewrite tloc_many by exact H; cbn [add_at]; rewrite take_cols_M by exact in_states; cbn [bind]; rewrite seq_length.
          destruct (elementwise_mats F (radd O) (M2 n nt (fun i j => a0 i (nth j (seq ns nt) 0))) (cv F n nt u) n nt (fun i j => jc i (ns + j)) (mmul F O nf jf Gf)) as (w & Ew' & w' & -> & Ew'').
          { eexists; split; [reflexivity|]; intros i j Hi Hj; rewrite seq_nth by exact Hj; apply E0; lia. }
          { apply isV_M2; [exact H|]; exists u; split; [reflexivity|exact Eu]. }
          unfold nadd; rewrite Ew'; cbn [bind fit2]; rewrite !Nat.eqb_refl; cbn [orb andb bind].
          eexists; split; [reflexivity|]; eexists; split; [reflexivity|]; intros i j Hi Hj; unfold Am; rewrite place_seq.
          destruct ((ns <=? j) && (j <? ns + nt)) eqn:Ej.
          + apply andb_true_iff in Ej as [Ej1 Ej2]; apply Nat.leb_le in Ej1; apply Nat.ltb_lt in Ej2.
            rewrite !at_below, Ew'' by lia; replace (ns + (j - ns)) with j by lia; reflexivity.
          + rewrite E0 by assumption; ring. }
      destruct KA as (A & -> & KA); cbn [bind]; rewrite Cp, Lcp.
      destruct (put_last_M n jf f1) as (C & -> & KC); cbn [bind].
      rewrite <- gy_is; destruct (Nat.eq_dec nt 1) as [H|H].
      - rewrite gs_one by exact H; cbn [bind]; rewrite Hnt; exists A, C, (S0 (rmul O (G ns 0) (G ns 0))); split; [reflexivity|]; split; [exact KA|]; split; [exact KC|].
        rewrite H; split; [split; reflexivity|]; intros i j Hi Hj; cbn [entries]; unfold Gs; replace i with 0 by lia; replace j with 0 by lia; cbn; rewrite Nat.add_0_r; reflexivity.
      - destruct (gs_many H) as (f & -> & Ef); cbn [bind]; rewrite Hnt; exists A, C, (ntrans F (nkron F O (M2 nt nt f) (M2 nt nt f))); split; [reflexivity|]; split; [exact KA|]; split; [exact KC|].
        cbn [nkron rows cols row_of ntrans]; split; [split; reflexivity|]; intros i j Hi Hj; cbn [entries].
        assert (B : forall p, p < nt * nt -> p / nt < nt /\ p mod nt < nt) by (intros p Hp; split; [apply Nat.div_lt_upper_bound; lia|apply Nat.mod_upper_bound; lia]).
        destruct (B i Hi), (B j Hj); rewrite !Ef by assumption; reflexivity.
    Qed.

    (** ** The arguments of the Hessian *)
    Lemma isM_id m : isM (identity F O m) m m (mid F O).
    Proof. eexists; split; [reflexivity|intros i j _ _; reflexivity]. Qed.
    Lemma isM_zeros r c : isM (zeros F O r c) r c (fun _ _ => r0 O).
    Proof. eexists; split; [reflexivity|intros i j _ _; reflexivity]. Qed.
    Lemma ensure2_M a r c m : isM a r c m -> isM (ensure2 F a) r c m.
    Proof. intros (f & -> & E); exists f; split; [reflexivity|exact E]. Qed.
    Lemma isV_cv r c f m : meq r c f m -> isV (cv F r c f) r c m.
    Proof. intros E; exists f; split; [reflexivity|exact E]. Qed.
    Lemma dx_is : okV (hess_coefs_dx F O x gy) N nt zx.
    Proof.
      unfold hess_coefs_dx; rewrite Hnt, Hne, gy_is; destruct (all_now nt G) as (cg & -> & Ecg); cbn [bind].
      destruct (all_lead nt G) as (gf & -> & Egf); cbn [bind]; rewrite <- gy_is.
      assert (K : exists gs fg, at_loc F (tloc x) gy = Ok gs /\ matmul_scalar F O (cv F nf nt gf) gs = Ok fg /\ isV fg nf nt (fun f a => rsum nt (fun c => rmul O (G (fore f) c) (G (ns + c) a)))).
      { destruct (Nat.eq_dec nt 1) as [H|H].
        - exists (S0 (G ns 0)); unfold matmul_scalar; rewrite item_cv by lia; cbn [item]; eexists; split; [apply gs_one, H|]; split; [reflexivity|].
          rewrite H in *; cbn [cv Nat.eqb nmap]; exists (fun f _ => rmul O (gf f 0) (G ns 0)); split; [reflexivity|]; intros i j Hi Hj.
          rewrite (rsum_one F O RT), Egf by lia; rewrite Nat.add_0_r; replace j with 0 by lia; reflexivity.
        - destruct (gs_many H) as (f & E & Ef); exists (M2 nt nt f).
          assert (K : isM (cv F nf nt gf) nf nt Gf) by (apply isV_M2; [exact H|apply isV_cv, Egf]).
          destruct (matmul_mm F O (cv F nf nt gf) (M2 nt nt f) nf nt nt Gf Gs K) as (w & Ew' & Ew''); [exists f; split; [reflexivity|exact Ef]|].
          exists w; split; [exact E|]; split; [|apply isM_V; [exact H|exact Ew'']].
          unfold matmul_scalar; rewrite item_cv by lia; rewrite item_mat by lia; exact Ew'. }
      destruct K as (gs & fg & -> & E1 & E2); cbn [bind]; rewrite E1; cbn [bind].
      destruct (concat4_V F (identity F O nt) (cv F n nt cg) fg (zeros F O ne nt) nt n nf ne nt _ _ _ _ (ensure2_M _ _ _ _ (isM_id nt))
        (isV_ensure2 _ _ _ _ _ (isV_cv _ _ _ _ Ecg)) (isV_ensure2 _ _ _ _ _ E2) (ensure2_M _ _ _ _ (isM_zeros ne nt))) as (w & -> & W); [lia|].
      exists w; split; [reflexivity|]; rewrite EN; apply (isV_ext _ _ _ _ _ _ W); intros p a Hp Ha; unfold vcat, zx.
      destruct (Nat.ltb_spec p (nt + n + nf)), (Nat.ltb_spec p (nt + n)), (Nat.ltb_spec p nt); try lia; try reflexivity.
      replace (p - nt - n) with (p - (nt + n)) by lia; reflexivity.
    Qed.
    Hypothesis te : nt <> 1 \/ ne = 1 \/ ne <> nf.
    Lemma lead_us : exists gf us fg, rows_where F (present (row_p (dr x))) gy = Ok gf /\ at_loc F (tloc x) gu = Ok us /\
      (match matmul_scalar F O gf us with Err ValueErr => Ok (nouter F O gf us) | r => r end) = Ok fg /\
      (nt = 1 \/ ne <> 1 -> isV fg nf ne (fun f l => rsum nt (fun c => rmul O (G (fore f) c) (U (ns + c) l)))) /\
      (nt <> 1 -> ne = 1 -> exists f, fg = V1 nf f).
    Proof.
      rewrite gy_is; destruct (all_lead nt G) as (gf & E & Egf); exists (cv F nf nt gf); rewrite <- gy_is in *; destruct (Nat.eq_dec nt 1) as [H|H].
      - exists (if ne =? 1 then S0 (U ns 0) else V1 ne (U ns)).
        rewrite us_one by exact H; unfold matmul_scalar; rewrite item_cv by lia; rewrite H in *; cbn [cv Nat.eqb] in *.
        destruct (Nat.eqb_spec ne 1) as [H'|H'].
        + cbn [item nmap]; eexists; split; [exact E|]; split; [reflexivity|]; split; [reflexivity|]; split; [intros _|intros; lia].
          rewrite H'; exists (fun f _ => rmul O (gf f 0) (U ns 0)); split; [reflexivity|]; intros i j Hi Hj.
          rewrite (rsum_one F O RT), Egf by lia; rewrite Nat.add_0_r; replace j with 0 by lia; reflexivity.
        + cbn [item]; rewrite (proj2 (Nat.eqb_neq ne 1) H'); cbn [nmatmul]; rewrite (proj2 (Nat.eqb_neq nf ne)) by lia.
          eexists; split; [exact E|]; split; [reflexivity|]; split; [reflexivity|]; split; [intros _|intros; lia].
          unfold nouter; cbn [nsize flat]; apply isM_V; [exact H'|]; eexists; split; [reflexivity|]; intros i j Hi Hj.
          rewrite (rsum_one F O RT), Egf by lia; rewrite Nat.add_0_r; reflexivity.
      - assert (K : isM (cv F nf nt gf) nf nt Gf) by (apply isV_M2; [exact H|apply isV_cv, Egf]).
        destruct (Nat.eq_dec ne 1) as [H'|H'].
        + assert (E2 : at_loc F (tloc x) gu = Ok (V1 nt (fun i => U (nth i (seq ns nt) 0) 0))).
          { rewrite tloc_many, gu_is, H' by exact H; cbn [cv Nat.eqb at_loc]; rewrite (proj2 (forallb_forall _ (seq ns nt))); [rewrite seq_length; reflexivity|].
            intros i Hi; apply Nat.ltb_lt, in_states, Hi. }
          eexists _, _; split; [exact E|]; split; [exact E2|]; unfold matmul_scalar; rewrite item_cv by lia; cbn [item]; rewrite (proj2 (Nat.eqb_neq nt 1) H).
          unfold cv; rewrite (proj2 (Nat.eqb_neq nt 1) H); cbn [nmatmul]; rewrite Nat.eqb_refl; split; [reflexivity|]; split; [intros; lia|]; intros _ _; eexists; reflexivity.
        + destruct (us_many H H') as (f & E2 & Ef); exists (M2 nt ne f).
          destruct (matmul_mm F O (cv F nf nt gf) (M2 nt ne f) nf nt ne Gf Us K) as (w & Ew' & Ew''); [exists f; split; [reflexivity|exact Ef]|].
          exists w; split; [exact E|]; split; [exact E2|]; split; [|split; [intros _; apply isM_V; [exact H'|exact Ew'']|intros; lia]].
          unfold matmul_scalar; rewrite item_cv by lia; rewrite item_mat by lia; rewrite Ew'; reflexivity.
    Qed.
    Lemma du_is : nt = 1 \/ ne <> 1 -> okV (hess_coefs_du F O x gy gu) N ne zu.
    Proof.
      intros Hs; unfold hess_coefs_du; rewrite Hnt, Hne, gu_is; destruct (all_now ne U) as (cg & -> & Ecg); cbn [bind]; rewrite <- gu_is.
      destruct lead_us as (gf & us & fg & -> & -> & E1 & E2 & _); cbn [bind]; rewrite E1; cbn [bind]; specialize (E2 Hs).
      destruct (concat4_V F (zeros F O nt ne) (cv F n ne cg) fg (identity F O ne) nt n nf ne ne _ _ _ _ (ensure2_M _ _ _ _ (isM_zeros nt ne))
        (isV_ensure2 _ _ _ _ _ (isV_cv _ _ _ _ Ecg)) (isV_ensure2 _ _ _ _ _ E2) (ensure2_M _ _ _ _ (isM_id ne))) as (w & -> & W); [lia|].
      exists w; split; [reflexivity|]; rewrite EN; apply (isV_ext _ _ _ _ _ _ W); intros p a Hp Ha; unfold vcat, zu.
      destruct (Nat.ltb_spec p (nt + n + nf)), (Nat.ltb_spec p (nt + n)), (Nat.ltb_spec p nt); try lia; try reflexivity.
      - replace (p - nt - n) with (p - (nt + n)) by lia; reflexivity.
      - replace (p - nt - n - nf) with (p - (nt + n + nf)) by lia; reflexivity.
    Qed.

    (** ** The solution *)
    Hypothesis eqb_eq : forall a b, eqb a b = true <-> a = b.
    Hypothesis Hq : real_schur_routine F O qz.
    Hypothesis Hs : linear_routine F O solve.
    Hypothesis He : fails_when_singular F O solve.
    Hypothesis Hu : refuses_singular F O solve.
    (** One of LAPACK's routines failed. *)
    Definition failed (e : exn) : Prop := (exists q P S_, qz q P S_ = Err e) \/ (exists q k P S_, solve q k P S_ = Err e).
    Definition Hh (i P : nat) : F := Hm i (nth (P / N) d 0 * N + nth (P mod N) d 0).
    Local Notation mul := (mmul F O).
    (** The left-hand side of the equation of the second derivatives in the states. *)
    Definition lhs (X : mat F) (i p : nat) : F := radd O (mul n Am X i p) (mul (nt * nt) (mul n Cm X) (kr F O nt nt Gs Gs) i p).
    Lemma sylvester_lhs A C D X i p : isM A n n Am -> isM C n n Cm ->
      meq (nt * nt) (nt * nt) (entries F D) (fun p q => rmul O (Gs (q / nt) (p / nt)) (Gs (q mod nt) (p mod nt))) -> i < n -> p < nt * nt ->
      sylvester F O n (nt * nt) (entries F A) (entries F (identity F O (nt * nt))) (entries F C) (entries F D) X i p = lhs X i p.
    Proof.
      intros A' C' D' Hi Hp; destruct (isM_sized _ _ _ _ _ A') as [_ EA]; destruct (isM_sized _ _ _ _ _ C') as [_ EC].
      rewrite (sylvester_mul F O RT); unfold madd, lhs; f_equal.
      - unfold identity; cbn [entries]; unfold mmul, mtr.
        transitivity (rsum (nt * nt) (fun l => rmul O (mid F O p l) (rsum n (fun k => rmul O (Am i k) (X k l))))).
        + apply rsum_ext; intros l _; transitivity (rmul O (rsum n (fun k => rmul O (Am i k) (X k l))) (mid F O p l)); [f_equal; apply rsum_ext; intros k Hk; rewrite EA by assumption; reflexivity|ring].
        + rewrite (rsum_single F O RT _ p _ Hp); [unfold mid; rewrite Nat.eqb_refl; ring|]; intros b _ Nb; unfold mid; rewrite (proj2 (Nat.eqb_neq p b)) by congruence; ring.
      - unfold mmul, mtr; apply rsum_ext; intros l Hl; f_equal; [apply rsum_ext; intros k Hk; rewrite EC by assumption; reflexivity|].
        rewrite D' by assumption; reflexivity.
    Qed.
    Lemma ghxx_is A C D z h :
      isM A n n Am -> isM C n n Cm -> sized F D (nt * nt) (nt * nt) ->
      meq (nt * nt) (nt * nt) (entries F D) (fun p q => rmul O (Gs (q / nt) (p / nt)) (Gs (q mod nt) (p mod nt))) ->
      isV z N nt zx -> isM h n (N * N) Hh ->
      match solve_ghxx F O eqb qz solve nan A (identity F O (nt * nt)) C D z h with
      | Err e => failed e
      | Ok X => exists XX, isV X n (nt * nt) XX /\
          (forall i p, i < n -> p < nt * nt -> lhs XX i p = ropp O (mul (N * N) Hh (kr F O N nt zx zx) i p)) /\
          (forall Y, (forall i p, i < n -> p < nt * nt -> lhs Y i p = r0 O) -> forall i p, i < n -> p < nt * nt -> Y i p = r0 O)
      end.
    Proof.
      intros A' C' D1 D2 Z H'; unfold solve_ghxx.
      destruct (kron_cv F O RT h z n N nt Hh zx H' Z) as (w & -> & W); [lia|lia|lia|]; cbn [bind].
      apply isV_neg with (O := O) in W; destruct (isV_sized _ _ _ _ _ W) as [SW EW].
      destruct (isM_sized _ _ _ _ _ A') as [SA _]; destruct (isM_sized _ _ _ _ _ C') as [SC _].
      assert (SI : sized F (identity F O (nt * nt)) (nt * nt) (nt * nt)) by (split; reflexivity).
      assert (Ptt : 0 < nt * nt) by (apply Nat.mul_pos_pos; exact Pt).
      destruct (generalized_sylvester _ _ _ _ _ _ _ _ _ _ _) as [X|e] eqn:E.
      - pose proof (sylvester_spec F O RT eqb eqb_eq qz Hq solve Hs He nan n (nt * nt) A _ C D _ ltac:(lia) Ptt SA SI SC D1 SW
          (sylvester_factors F O eqb qz solve nan n (nt * nt) A _ C D _ X SA SI SC D1 SW E)) as K; rewrite E in K; destruct K as [K1 K2].
        exists (entries F X); split; [exact (shape_isV _ _ _ _ _ _ W K1)|]; split.
        + intros i p Hi Hp; rewrite <- (sylvester_lhs A C D) by assumption; rewrite K2 by assumption; apply EW; assumption.
        + intros Y HY; apply (sylvester_refuses F O RT eqb eqb_eq qz Hq solve nan Hu n (nt * nt) A _ C D _ X ltac:(lia) Ptt SA SI SC D1 SW E).
          intros i p Hi Hp; rewrite sylvester_lhs by assumption; apply HY; assumption.
      - exact (sylvester_fails F O eqb eqb_eq qz Hq solve nan n (nt * nt) A _ C D _ e Ptt SA SI SC D1 SW E).
    Qed.
    Hypothesis se : nt = 1 \/ ne <> 1.
    Lemma routine r c A B X m m' : solve r c A B = Ok X -> meq r r A m -> meq r c B m' -> forall i j, i < r -> j < c -> mul r m X i j = m' i j.
    Proof.
      intros E EA EB i j Hi Hj; rewrite <- EB by assumption; rewrite <- (Hs _ _ _ _ _ E i j Hi Hj); unfold mmul; apply rsum_ext; intros l Hl.
      rewrite EA by assumption; reflexivity.
    Qed.
    Lemma ghxu_is A C X XX z z' h :
      isM A n n Am -> isM C n n Cm -> isV X n (nt * nt) XX -> isV z N nt zx -> isV z' N ne zu -> isM h n (N * N) Hh ->
      match solve_ghxu F O solve (tloc x) gy gu A C X z z' h with
      | Err e => failed e
      | Ok Y => exists XU, isV Y n (nt * ne) XU /\ (forall i p, i < n -> p < nt * ne ->
          mul n Am XU i p = rsub O (ropp O (mul (N * N) Hh (kr F O N ne zx zu) i p)) (mul n Cm (mul (nt * nt) XX (kr F O nt ne Gs Us)) i p))
      end.
    Proof.
      intros A' C' X' Z Z' H'; unfold solve_ghxu.
      destruct (kron_mm F O RT h (ensure2 F z) (ensure2 F z') n N nt ne Hh zx zu H' (isV_ensure2 _ _ _ _ _ Z) (isV_ensure2 _ _ _ _ _ Z')) as (w & -> & W); [lia|lia|lia|]; cbn [bind].
      apply isM_neg with (O := O), isV_squeeze in W; [|lia].
      destruct gs_2d as (gs & -> & GS); cbn [bind]; destruct (us_2d se) as (us & -> & US); cbn [bind].
      destruct (kron_mm F O RT (ensure2 F X) _ _ n nt nt ne XX Gs Us (isV_ensure2 _ _ _ _ _ X') GS US) as (v & -> & V'); [lia|lia|lia|]; cbn [bind].
      apply isV_squeeze in V'; [|lia].
      destruct (matmul_scalar_cv F O C (squeeze F v) n n (nt * ne) Cm _ C' V') as (c & -> & C2); [lia|lia|]; cbn [bind].
      destruct (elementwise_same F (rsub O) _ _ n (nt * ne) _ _ W C2) as (r & E & R'); unfold nsub; rewrite E; cbn [bind].
      destruct (lsolve_cv F solve A r n (nt * ne) Am _ A' R') as [(e & k & P & Q & -> & E')|(y & P & Q & Y & -> & E' & EP & EQ & E'')].
      - right; do 4 eexists; exact E'.
      - exists Y; split; [exact E''|]; intros i p Hi Hp; exact (routine _ _ _ _ _ _ _ E' EP EQ i p Hi Hp).
    Qed.
    Lemma ghuu_is A C X XX z' h :
      isM A n n Am -> isM C n n Cm -> isV X n (nt * nt) XX -> isV z' N ne zu -> isM h n (N * N) Hh ->
      match solve_ghuu F O solve (tloc x) gu A C X z' h with
      | Err e => failed e
      | Ok Y => exists UU, isV Y n (ne * ne) UU /\ (forall i p, i < n -> p < ne * ne ->
          mul n Am UU i p = rsub O (ropp O (mul (N * N) Hh (kr F O N ne zu zu) i p)) (mul (nt * nt) (mul n Cm XX) (kr F O nt ne Us Us) i p))
      end.
    Proof.
      intros A' C' X' Z' H'; unfold solve_ghuu.
      destruct (kron_cv F O RT h z' n N ne Hh zu H' Z') as (w & -> & W); [lia|lia|lia|]; cbn [bind].
      apply isV_neg with (O := O) in W.
      destruct (matmul_cv F O C X n n (nt * nt) Cm XX C' X') as (c & -> & C2); cbn [bind]; destruct (us_2d se) as (us & -> & US); cbn [bind].
      destruct (kron_mm F O RT (ensure2 F c) _ _ n nt ne ne _ Us Us (isV_ensure2 _ _ _ _ _ C2) US US) as (v & E0 & V'); [lia|lia|lia|].
      change (matrix_kron F O (ensure2 F c) (row_oriented F (ensure2 F us)) None) with (matrix_kron F O (ensure2 F c) (row_oriented F (ensure2 F us)) (Some (row_oriented F (ensure2 F us)))).
      rewrite E0; cbn [bind]; apply isV_squeeze in V'; [|lia].
      destruct (elementwise_same F (rsub O) _ _ n (ne * ne) _ _ W V') as (r & E & R'); unfold nsub; rewrite E; cbn [bind].
      destruct (lsolve_cv F solve A r n (ne * ne) Am _ A' R') as [(e & k & P & Q & -> & E')|(y & P & Q & Y & -> & E' & EP & EQ & E'')].
      - right; do 4 eexists; exact E'.
      - exists Y; split; [exact E''|]; intros i p Hi Hp; exact (routine _ _ _ _ _ _ _ E' EP EQ i p Hi Hp).
    Qed.

    (** ** The term for uncertainty *)
    Definition Hff (i P : nat) : F := Hm i (nth (P / nf) cp 0 * N + nth (P mod nf) cp 0).
    Definition Uf : mat F := fun f l => U (fore f) l.
    Definition spread (UU : mat F) : mat F := fun i p => radd O (mul nf jf (fun f => UU (fore f)) i p) (mul (nf * nf) Hff (kr F O nf ne Uf Uf) i p).
    Definition Df (f j : nat) : F := radd O (mid F O (fore f) j) (if (ns <=? j) && (j <? ns + nt) then G (fore f) (j - ns) else r0 O).
    Definition two : F := radd O (r1 O) (r1 O).
    Lemma del2_is Y UU : isV Y n (ne * ne) UU ->
      match solve_del2 F O solve x gy gu Y sigma jac_ hess with
      | Err e => failed e
      | Ok D => exists C, isV D n 1 (fun i j => rdiv O (C i j) two) /\ (forall i, i < n ->
          mul n (fun i j => radd O (Am i j) (Cm i j)) C i 0 = ropp O (rsum (ne * ne) (fun p => rmul O (spread UU i p) (V (p mod ne) (p / ne)))))
      end.
    Proof.
      intros Y'; unfold solve_del2; rewrite Cp, Ew.
      destruct (pairs_M cp Bcp) as (h & -> & H'); cbn [bind]; rewrite Lcp in H'.
      rewrite gu_is; destruct (all_lead ne U) as (uf & -> & Euf); cbn [bind].
      destruct (kron_cv F O RT h (cv F nf ne uf) n nf ne Hff Uf H' (isV_cv _ _ _ _ Euf)) as (b & -> & B); [lia|lia|lia|]; cbn [bind].
      rewrite <- Cp, takep; cbn [bind].
      destruct Y' as (yy & -> & EY); destruct (all_lead (ne * ne) yy) as (uu & -> & Euu); cbn [bind].
      destruct (matmul_cv F O (M2 n nf jf) (cv F nf (ne * ne) uu) n nf (ne * ne) jf (fun f => UU (fore f))) as (a & -> & A).
      { exists jf; split; [reflexivity|intros i j _ _; reflexivity]. }
      { apply isV_cv; intros i j Hi Hj; rewrite Euu by assumption; apply EY; [unfold fore; lia|exact Hj]. }
      cbn [bind]; destruct (elementwise_same F (radd O) _ _ n (ne * ne) _ _ A B) as (r & E & R'); unfold nadd at 1; rewrite E; cbn [bind].
      assert (KV : exists v, matmul_scalar F O r (flatten F (ntrans F sigma)) = Ok (V1 n v) /\ forall i, i < n -> v i = rsum (ne * ne) (fun p => rmul O (spread UU i p) (V (p mod ne) (p / ne)))).
      { destruct R' as (rr & -> & ER); unfold sigma; cbn [ntrans]; unfold flatten; cbn [nsize flat]; unfold matmul_scalar; rewrite item_cv by lia; cbn [item].
        destruct (Nat.eqb_spec (ne * ne) 1) as [E1|E1].
        - rewrite E1; cbn [cv Nat.eqb nmap]; eexists; split; [reflexivity|]; intros i Hi; cbv beta.
          rewrite (rsum_one F O RT), ER by lia; reflexivity.
        - unfold cv; rewrite (proj2 (Nat.eqb_neq _ 1) E1); cbn [nmatmul]; rewrite Nat.eqb_refl; eexists; split; [reflexivity|]; intros i Hi; cbv beta.
          apply rsum_ext; intros p Hp; rewrite ER by assumption; reflexivity. }
      destruct KV as (v & -> & EV); cbn [bind]; rewrite Epf, countp; cbn [bind]; cbn [jac_].
      rewrite gy_is; destruct (all_lead nt G) as (gf & -> & Egf); cbn [bind].
      rewrite Hns; destruct (concat3_M F (zeros F O nf ns) (cv F nf nt gf) (zeros F O nf (List.length npf)) nf ns nt (List.length npf) _ _ _ (ensure2_M _ _ _ _ (isM_zeros nf ns))
        (isV_ensure2 _ _ _ _ _ (isV_cv _ _ _ _ Egf)) (ensure2_M _ _ _ _ (isM_zeros nf (List.length npf)))) as (w & -> & W); cbn [bind]; rewrite Lpf in W.
      unfold identity; destruct (lead_M n (mid F O)) as (ef & -> & Eef); cbn [bind].
      assert (KD : okM (nadd F O (M2 nf n ef) (squeeze F w)) nf n Df).
      { destruct W as (ww & -> & EW).
        assert (W' : meq nf n ww (fun f j => if (ns <=? j) && (j <? ns + nt) then G (fore f) (j - ns) else r0 O)).
        { intros f j Hf Hj; rewrite EW by assumption; unfold hcat.
          destruct (Nat.ltb_spec j (ns + nt)), (Nat.ltb_spec j ns), (Nat.leb_spec ns j); cbn [andb]; try lia; reflexivity. }
        unfold squeeze; destruct (Nat.eqb_spec nf 1) as [E1|E1].
        - rewrite (proj2 (Nat.eqb_neq n 1)) by lia; rewrite E1 in *; unfold nadd; cbn [elementwise rows cols]; unfold axis; cbn [Nat.eqb]; rewrite Nat.eqb_refl; cbn [entry].
          eexists; split; [reflexivity|]; eexists; split; [reflexivity|]; intros f j Hf Hj; cbn [entry]; rewrite ?(at_below n j Hj), ?(at_below 1 f Hf).
          rewrite Eef by assumption; replace f with 0 by lia; rewrite W' by (lia || assumption); reflexivity.
        - rewrite (proj2 (Nat.eqb_neq n 1)) by lia; destruct (elementwise_mats F (radd O) (M2 nf n ef) (M2 nf n ww) nf n (fun i j => mid F O (fore i) j)
            (fun f j => if (ns <=? j) && (j <? ns + nt) then G (fore f) (j - ns) else r0 O)) as (y & Ey & KY);
            [exists ef; auto|exists ww; split; [reflexivity|exact W']|exists y; split; [exact Ey|exact KY]]. }
      destruct KD as (df & -> & KD); cbn [bind].
      rewrite take0; cbn [bind]; destruct (put_now n jc) as (l0 & -> & L0); cbn [bind].
      destruct (matmul_mm F O (M2 n nf jf) df n nf n jf Df) as (m & -> & M'); [exists jf; split; [reflexivity|intros i j _ _; reflexivity]|exact KD|]; cbn [bind].
      destruct (elementwise_mats F (radd O) l0 m n n _ _ L0 M') as (l & El & L'); unfold nadd; rewrite El; cbn [bind].
      destruct (lsolve_cv F solve l (nneg F O (V1 n v)) n 1 _ (fun i _ => ropp O (v i)) L') as [(e & k & P & Q & -> & E')|(y & P & Q & Y & -> & E' & EP & EQ & E'')].
      { exists (fun i _ => ropp O (v i)); split; [reflexivity|intros i j _ _; reflexivity]. }
      - right; do 4 eexists; exact E'.
      - cbn [bind]; exists Y; split; [apply isV_div; exact E''|]; intros i Hi; rewrite <- EV by exact Hi.
        rewrite <- (routine _ _ _ _ _ _ _ E' EP EQ i 0 Hi ltac:(lia)); unfold mmul; apply rsum_ext; intros j Hj; f_equal.
        change (radd O (Am i j) (Cm i j) = radd O (jc i j) (rsum nf (fun f => rmul O (jf i f) (Df f j)))).
        unfold Df; transitivity (radd O (jc i j) (radd O (rsum nf (fun f => rmul O (jf i f) (mid F O (fore f) j)))
          (rsum nf (fun f => rmul O (jf i f) (if (ns <=? j) && (j <? ns + nt) then G (fore f) (j - ns) else r0 O))))).
        2: { f_equal; rewrite <- (rsum_add F O RT); apply rsum_ext; intros f _; ring. }
        assert (K1 : Cm i j = rsum nf (fun f => rmul O (jf i f) (mid F O (fore f) j))).
        { unfold Cm; destruct (Nat.ltb_spec j (n - nf)).
          - symmetry; apply (rsum_all_zero F O RT); intros f Hf; unfold mid; rewrite (proj2 (Nat.eqb_neq (fore f) j)) by (unfold fore; lia); ring.
          - rewrite (rsum_single F O RT nf (j - (n - nf))); [unfold mid; rewrite (proj2 (Nat.eqb_eq (fore (j - (n - nf))) j)) by (unfold fore; lia); ring|lia|].
            intros f Hf Nf; unfold mid; rewrite (proj2 (Nat.eqb_neq (fore f) j)) by (unfold fore; lia); ring. }
        rewrite K1; unfold Am; destruct ((ns <=? j) && (j <? ns + nt)); [ring|].
        rewrite (rsum_all_zero F O RT nf (fun f => rmul O (jf i f) (r0 O))) by (intros; ring); ring.
    Qed.

    (** ** The whole *)
    Theorem run : match solve_second_order F O eqb qz solve nan x gy gu jac_ hess sigma with
      | Err e => failed e
      | Ok (xx, xu, uu, dl) => exists XX XU UU C,
          (isV xx n (nt * nt) (fun i p => rdiv O (XX i p) two) /\ isV xu n (nt * ne) XU /\ isV uu n (ne * ne) (fun i p => rdiv O (UU i p) two) /\ isV dl n 1 (fun i p => rdiv O (C i p) two)) /\
          (forall i p, i < n -> p < nt * nt -> lhs XX i p = ropp O (mul (N * N) Hh (kr F O N nt zx zx) i p)) /\
          (forall Y, (forall i p, i < n -> p < nt * nt -> lhs Y i p = r0 O) -> forall i p, i < n -> p < nt * nt -> Y i p = r0 O) /\
          (forall i p, i < n -> p < nt * ne ->
            mul n Am XU i p = rsub O (ropp O (mul (N * N) Hh (kr F O N ne zx zu) i p)) (mul n Cm (mul (nt * nt) XX (kr F O nt ne Gs Us)) i p)) /\
          (forall i p, i < n -> p < ne * ne ->
            mul n Am UU i p = rsub O (ropp O (mul (N * N) Hh (kr F O N ne zu zu) i p)) (mul (nt * nt) (mul n Cm XX) (kr F O nt ne Us Us) i p)) /\
          (forall i, i < n -> mul n (fun i j => radd O (Am i j) (Cm i j)) C i 0 = ropp O (rsum (ne * ne) (fun p => rmul O (spread UU i p) (V (p mod ne) (p / ne)))))
      end.
    Proof.
      unfold solve_second_order; destruct setup_is as (A & C & D & -> & A' & C' & D1 & D2); cbn [bind].
      destruct dx_is as (z & -> & Z); cbn [bind]; destruct (du_is se) as (z' & -> & Z'); cbn [bind].
      rewrite Ew, Ed; destruct (pairs_M d Bd) as (h & -> & H'); cbn [bind]; rewrite Ld in H'.
      pose proof (ghxx_is A C D z h A' C' D1 D2 Z H') as K1; destruct (solve_ghxx _ _ _ _ _ _ _ _ _ _ _ _) as [X|e]; cbn [bind]; [|exact K1].
      destruct K1 as (XX & X' & K1 & K2).
      pose proof (ghxu_is A C X XX z z' h A' C' X' Z Z' H') as K3; destruct (solve_ghxu _ _ _ _ _ _ _ _ _ _ _ _) as [Xu|e]; cbn [bind]; [|exact K3].
      destruct K3 as (XU & X2 & K3).
      pose proof (ghuu_is A C X XX z' h A' C' X' Z' H') as K4; destruct (solve_ghuu _ _ _ _ _ _ _ _ _ _) as [Uu|e]; cbn [bind]; [|exact K4].
      destruct K4 as (UU & X3 & K4).
      pose proof (del2_is Uu UU X3) as K5; destruct (solve_del2 _ _ _ _ _ _ _ _ _ _) as [dl|e]; cbn [bind]; [|exact K5].
      destruct K5 as (CC & X4 & K5); exists XX, XU, UU, CC; split; [|auto 6].
      split; [apply isV_div; exact X'|]; split; [exact X2|]; split; [apply isV_div; exact X3|exact X4].
    Qed.
  End Big.

  (** ** The sizes that can be solved *)
  Lemma setup_start s : setup_system F O x gy jac_ = Ok s -> 1 < n -> exists gf up A C s',
    rows_where F (present (row_p (dr x))) gy = Ok (cv F nf nt gf) /\ matmul_scalar F O (M2 n nf jf) (cv F nf nt gf) = Ok up /\
    (exists a, add_at F O (tloc x) up (M2 n n a) = Ok A) /\ put_last F nf (M2 n nf jf) (zeros F O n n) = Ok C /\ s = s'.
  Proof.
    intros H n2; unfold setup_system in H; rewrite take0, takep in H; cbn [bind] in H; rewrite Hn in H.
    destruct (put_now n jc) as (A0 & E0 & a0 & -> & _); rewrite E0 in H; cbn [bind] in H.
    rewrite (gy_is n2) in H |- *; destruct (all_lead nt G) as (gf & E & _); rewrite E in H |- *; cbn [bind] in H.
    apply bind_ok in H as (up & E1 & H); apply bind_ok in H as (A & E2 & H); apply bind_ok in H as (C & E3 & H).
    rewrite Cp, Lcp in E3; exists gf, up, A, C, s; split; [reflexivity|]; split; [exact E1|]; split; [exists a0; exact E2|]; split; [exact E3|reflexivity].
  Qed.
  Theorem run_sizes r : (forall a b, eqb a b = true <-> a = b) -> real_schur_routine F O qz -> linear_routine F O solve -> fails_when_singular F O solve -> refuses_singular F O solve ->
    0 < n -> solve_second_order F O eqb qz solve nan x gy gu jac_ hess sigma = Ok r ->
    1 < n /\ 0 < nf /\ ((1 < nt /\ 1 < ne) \/ (nt = 1 /\ 1 < nf /\ (ne = 1 \/ ne <> nf))).
  Proof.
    intros eqb_eq Hq Hs He Hu n1 H; unfold solve_second_order in H.
    apply bind_ok in H as (s & E1 & H); destruct s as [[[A B] C] D].
    assert (n2 : 1 < n).
    { destruct (Nat.eq_dec n 1) as [E|E]; [exfalso|lia].
      unfold setup_system in E1; apply bind_ok in E1 as (? & _ & E1); apply bind_ok in E1 as (? & _ & E1); apply bind_ok in E1 as (? & _ & E1).
      apply bind_ok in E1 as (gf & E1 & _); unfold gy in E1; rewrite E in E1; replace nt with 1 in E1 by lia; discriminate E1. }
    split; [exact n2|].
    destruct (setup_start _ E1 n2) as (gf & up & A1 & C1 & _ & S1 & S2 & (a & S3) & S4 & _).
    assert (f1 : 0 < nf).
    { destruct (Nat.eq_dec nf 0) as [E|E]; [exfalso|lia]; rewrite E in S4; rewrite put_last_none in S4 by exact n1; discriminate S4. }
    split; [exact f1|].
    destruct (Nat.eq_dec nt 1) as [E|E]; [right|left].
    - split; [exact E|].
      assert (f2 : 1 < nf).
      { destruct (Nat.eq_dec nf 1) as [Ef|Ef]; [exfalso|lia].
        rewrite Ef, E in S2; unfold matmul_scalar in S2; rewrite item_mat in S2 by lia; cbn [cv Nat.eqb item nmap] in S2; injection S2 as <-.
        rewrite tloc_one in S3 by exact E; cbn [add_at column] in S3; rewrite (proj2 (Nat.ltb_lt ns n)) in S3 by lia; cbn [bind] in S3.
        assert (X1 : axis 1 n = Some n) by (unfold axis; destruct (Nat.eqb_spec 1 n); [lia|reflexivity]).
        assert (X2 : axis n 1 = Some n) by (unfold axis; destruct (Nat.eqb_spec n 1); [lia|reflexivity]).
        unfold nadd in S3; cbn [elementwise rows cols] in S3; rewrite X1, X2 in S3; cbn [bind fit1] in S3.
        rewrite (proj2 (Nat.eqb_neq n 1)) in S3 by lia; discriminate S3. }
      split; [exact f2|]; destruct (Nat.eq_dec ne 1) as [Ee|Ee]; [left; exact Ee|right; intros Eq].
      apply bind_ok in H as (zx_ & _ & H); apply bind_ok in H as (zu_ & E2 & _); unfold hess_coefs_du in E2.
      rewrite (gu_is n2) in E2; destruct (all_now ne U) as (cg & Ec & _); rewrite Ec in E2; cbn [bind] in E2.
      rewrite S1 in E2; cbn [bind] in E2; rewrite <- (gu_is n2), (us_one n2 E), (proj2 (Nat.eqb_neq ne 1) Ee) in E2; cbn [bind] in E2.
      unfold matmul_scalar in E2; rewrite item_cv in E2 by lia; rewrite E in E2; cbn [cv Nat.eqb item] in E2; rewrite (proj2 (Nat.eqb_neq ne 1) Ee) in E2.
      cbn [nmatmul] in E2; rewrite <- Eq, Nat.eqb_refl in E2; cbn [bind] in E2.
      unfold concat4, zeros in E2; rewrite Hnt, Hne, E in E2; unfold cv in E2; rewrite (proj2 (Nat.eqb_neq ne 1) Ee) in E2; cbn [ensure2 vstack] in E2.
      rewrite Nat.eqb_refl in E2; cbn [negb bind vstack] in E2; rewrite (proj2 (Nat.eqb_neq ne 1) Ee) in E2; discriminate E2.
    - split; [lia|]; destruct (Nat.eq_dec ne 1) as [Ee|Ee]; [exfalso|lia].
      destruct (setup_is n2 f1 ltac:(lia)) as (A2 & C2 & D2 & E' & A' & C' & D1 & D3); rewrite E' in E1; injection E1 as <- <- <- <-.
      destruct (dx_is n2 f1 ltac:(lia)) as (z & Ez & Z); rewrite Ez in H; cbn [bind] in H.
      apply bind_ok in H as (zu_ & E2 & H); rewrite Ew, Ed in H; destruct (pairs_M d Bd) as (h & Eh & H'); rewrite Eh in H; cbn [bind] in H; rewrite Ld in H'.
      apply bind_ok in H as (X & E3 & H).
      pose proof (ghxx_is n2 f1 ltac:(lia) ltac:(lia) eqb_eq Hq Hs He Hu A2 C2 D2 z h A' C' D1 D3 Z H') as K; rewrite E3 in K; destruct K as (XX & X' & _).
      apply bind_ok in H as (Y & E4 & _); unfold solve_ghxu in E4.
      apply bind_ok in E4 as (e & _ & E4); destruct (gs_many n2 E) as (f & Ef & _); rewrite Ef in E4; cbn [bind] in E4.
      apply bind_ok in E4 as (us & E5 & E4); apply bind_ok in E4 as (p & E6 & _).
      rewrite tloc_many, gu_is, Ee in E5 by assumption; cbn [cv Nat.eqb at_loc] in E5.
      destruct (forallb _ _) in E5; [|discriminate E5]; injection E5 as <-; rewrite seq_length in E6.
      destruct (isV_ensure2 _ _ _ _ _ X') as (xf & Ex & _); rewrite Ex in E6; unfold matrix_kron in E6; cbn [ensure2 row_oriented Nat.eqb ntrans nkron rows cols row_of shape nmatmul] in E6.
      assert (Ntt : (nt * nt)%nat <> 1) by (rewrite sq_one; exact E).
      rewrite (proj2 (Nat.eqb_neq _ 1) Ntt) in E6; rewrite Nat.mul_1_r in E6.
      rewrite (proj2 (Nat.eqb_neq (nt * nt) nt)) in E6 by nia; discriminate E6.
  Qed.
End Run.
