(** Where the factors are cut, and which models are solved. *)
From Verif Require Import Base Nd NdProofs Mat MatProofs SimSpec Indexing IndexingSpec IndexingProofs IndexingProofs2 SummaryProofs Moments
  OrderProofs FirstOrder FirstOrderSpec FirstOrderProofs FirstOrderProofs2 FirstOrderProofs3 FirstOrderProofs4.

Section Cut.
  Variable F : Type.
  Variable O : rops F.
  Variable finv : F -> F.
  Variable FT : is_field O finv.
  Variable le : F -> F -> Prop.
  Hypothesis OR : is_ordered O le.
  Variable ltb : F -> F -> bool.
  Hypothesis Hltb : forall x y, ltb x y = false <-> le y x.
  Notation above := (above F O ltb).
  Notation inside := (inside_circle F O le).

  Lemma nth_above eig j : j < List.length eig -> nth j (map above eig) false = above (nth j eig Nan).
  Proof. intros Hj; rewrite (nth_indep _ false (above Nan)) by (rewrite map_length; exact Hj); apply map_nth. Qed.
  Lemma cut_lt eig kk : find_first (map above eig) = Ok kk -> cut (List.length eig) kk < List.length eig.
  Proof.
    intros H; apply find_first_spec in H as [L0 H]; rewrite map_length in L0, H.
    destruct H as [(m & ? & -> & _)|[-> _]]; lia.
  Qed.
  Lemma cut_exact eig kk k : find_first (map above eig) = Ok kk -> k <= List.length eig ->
    (forall i, i < k -> inside (nth i eig Nan)) -> (forall i, k <= i < List.length eig -> ~ inside (nth i eig Nan)) ->
    (cut (List.length eig) kk = k <-> k < List.length eig /\ (beyond_one F O le (nth k eig Nan) \/ S k = List.length eig)).
  Proof using FT OR Hltb.
    intros H Hk Hin Hout; pose proof (cut_lt eig kk H) as CL.
    apply find_first_spec in H as [L0 H]; rewrite map_length in L0, H.
    assert (Nin : forall i, i < k -> above (nth i eig Nan) = false) by (intros i Hi; apply (inside_not_above F O finv FT le OR ltb Hltb), Hin, Hi).
    split.
    - intros E; rewrite E in CL; split; [exact CL|].
      destruct H as [(m & Hm & E' & T & _)|[E' _]]; [left|right; lia].
      apply (above_iff F O le OR ltb Hltb); rewrite <- nth_above by exact CL; congruence.
    - intros [Hl [B|E]].
      + apply (above_iff F O le OR ltb Hltb) in B.
        destruct H as [(m & Hm & -> & T & Fl)|[_ Fl]].
        * rewrite nth_above in T by exact Hm.
          destruct (Nat.lt_trichotomy m k) as [G|[G|G]]; [rewrite Nin in T by exact G; discriminate T|exact G|].
          specialize (Fl k G); rewrite nth_above in Fl by exact Hl; congruence.
        * specialize (Fl k Hl); rewrite nth_above in Fl by exact Hl; congruence.
      + destruct H as [(m & Hm & -> & T & Fl)|[-> Fl]]; [|lia].
        rewrite nth_above in T by exact Hm.
        destruct (Nat.lt_trichotomy m k) as [G|[G|G]]; [rewrite Nin in T by exact G; discriminate T|exact G|lia].
  Qed.
  (** When some root is beyond one, the cut is at the first such root. *)
  Lemma cut_first eig kk : find_first (map above eig) = Ok kk -> (exists e, In e eig /\ beyond_one F O le e) ->
    let m := cut (List.length eig) kk in m < List.length eig /\ beyond_one F O le (nth m eig Nan) /\ (forall i, i < m -> ~ beyond_one F O le (nth i eig Nan)).
  Proof using OR Hltb.
    intros H (e & Ie & He); cbn zeta; pose proof (cut_lt eig kk H) as CL; apply find_first_spec in H as [L0 H]; rewrite map_length in L0, H.
    split; [exact CL|].
    destruct H as [(m & Hm & -> & T & Fl)|[_ Fl]].
    - rewrite nth_above in T by exact Hm; split; [apply (above_iff F O le OR ltb Hltb), T|].
      intros i Hi B; apply (above_iff F O le OR ltb Hltb) in B; specialize (Fl i Hi); rewrite nth_above in Fl by lia; congruence.
    - apply (In_nth _ _ Nan) in Ie as (j & Hj & <-); apply (above_iff F O le OR ltb Hltb) in He; specialize (Fl j Hj); rewrite nth_above in Fl by exact Hj; congruence.
  Qed.
End Cut.

Section Solved.
  Variable F : Type.
  Variable O : rops F.
  Variable finv : F -> F.
  Variable FT : is_field O finv.
  Let FT' : field_theory (r0 O) (r1 O) (radd O) (rmul O) (rsub O) (ropp O) (rdiv O) finv eq := FT.
  Let RT : is_ring O := F_R FT'.
  Variable le : F -> F -> Prop.
  Hypothesis OR : is_ordered O le.
  Variable ltb : F -> F -> bool.
  Hypothesis Hltb : forall x y, ltb x y = false <-> le y x.
  Variable qr : nat -> nat -> mat F -> res (mat F * mat F).
  Variable rank : nat -> nat -> mat F -> nat.
  Variable ordqz : nat -> mat F -> mat F -> res (schur F).
  Variable inv : nat -> mat F -> res (mat F).
  Variable solve : nat -> nat -> mat F -> mat F -> res (mat F).
  Hypothesis Hqr : qr_routine F O qr.
  Hypothesis Hqz : schur_routine F O le ordqz.
  Variable L : list (list Z).
  Variable k : nat.
  Hypothesis all0 : forall i, i < List.length L -> at_k L i 0 = true.
  Let X := array L k.
  Let n := List.length L.
  Let w := List.length (timed_vars L) + k.
  Let nb := List.length (members_of L (backward L)).
  Let nf := List.length (members_of L (forward L)).
  Lemma nb_is : nb = List.length (PB L) + List.length (MX L).
  Proof. unfold nb; rewrite (Permutation_length (backward_perm L k all0)), app_length; reflexivity. Qed.
  Lemma nf_is : nf = List.length (MX L) + List.length (PF L).
  Proof. unfold nf; rewrite (Permutation_length (forward_perm L k all0)), app_length; reflexivity. Qed.
  Variable f : mat F.
  Let J := M2 n w f.

  (** Without lags there is no state space. *)
  Lemma last_rows_shape j r c g : exists r' g', last_rows F j (M2 r c g) = M2 r' c g'.
  Proof. unfold last_rows; eauto. Qed.
  Lemma no_lags s : nb = 0 -> state_space F O ltb qr rank ordqz X J <> Ok s.
  Proof using RT all0 Hqr.
    intros H0 H; unfold state_space in H.
    assert (B0 : PB L = [] /\ MX L = []).
    { pose proof nb_is as E; split; [destruct (PB L)|destruct (MX L)]; try reflexivity; cbn in E; lia. }
    destruct B0 as [B0 M0].
    unfold structural in H; destruct (rotated F O qr rank X J) as [A|] eqn:EA; [|discriminate H]; cbn [bind] in H.
    destruct (rotated_spec F O RT qr rank L k all0 f A Hqr EA) as (a & Q & -> & _).
    destruct (last_rows_shape (Z.to_nat (n_dynamic X)) n w a) as (r' & g' & El); fold n w in H; rewrite El in H.
    unfold X in H; rewrite (dr_forward L k all0 1) in H by auto; cbn [bind] in H; unfold w in H; rewrite (take_Fp F L k) in H; cbn [bind] in H.
    rewrite (dr_backward L k all0 (-1)) in H by auto; cbn [bind] in H; rewrite (take_Bm F L k) in H; cbn [bind] in H.
    rewrite (dr_forward L k all0 0) in H by auto; cbn [bind] in H; rewrite (take_F0 F L k all0) in H; cbn [bind] in H.
    rewrite (dr_pure_backward L k all0) in H; cbn [bind] in H; rewrite (take_PB F L k all0) in H; cbn [bind nsize] in H.
    rewrite (n_mixed_is L k), M0, B0 in H; cbn [List.length Nat.ltb Nat.leb Nat.add app] in H; rewrite Nat.mul_0_r in H; cbn [Nat.eqb] in H.
    unfold zeros, hstack at 1 in H.
    destruct (_ =? r'); [|discriminate H]; cbn [bind] in H.
    unfold hstack in H; rewrite Nat.eqb_refl in H; cbn [bind fst snd nneg nmap] in H.
    unfold partitioned_qz in H.
    destruct (Nat.eqb_spec (Z.to_nat (n_dynamic (array L k))) (1 + List.length (PF L))) as [E1|E1]; cbn [andb negb] in H; [|discriminate H].
    destruct (Nat.eqb_spec r' (0 + List.length (PF L))) as [E2|E2]; cbn [andb negb] in H; [|discriminate H].
    destruct (Nat.eqb_spec (Z.to_nat (n_dynamic (array L k))) r') as [E3|E3]; cbn [andb negb] in H; [lia|discriminate H].
  Qed.

  (** A solved model's cut is at the number of lagged variables. *)
  Lemma solved_inv s r : state_space F O ltb qr rank ordqz X J = Ok s -> solve_first_order F O inv solve X s = Ok r ->
    0 < nb /\ List.length (eigen s) = nb + nf /\ 0 < k /\
    exists kk, find_first (map (above F O ltb) (eigen s)) = Ok kk /\ cut (nb + nf) kk = nb.
  Proof using RT Hqr Hqz all0.
    intros Hs Hg.
    destruct (Nat.eq_dec nb 0) as [B0|B0]; [exfalso; exact (no_lags s B0 Hs)|].
    assert (Hnb : 0 < List.length (PB L) + List.length (MX L)) by (rewrite <- nb_is; lia).
    destruct (state_inv F O finv FT ltb qr rank ordqz Hqr L k all0 Hnb f s Hs) as (a & Q & HA & _ & _ & _ & d & e & q & kk & _ & Eq & Ek & ->).
    rewrite nb_is, nf_is.
    pose proof (f_len _ _ _ _ _ _ _ (Hqz _ _ _ _ Eq)) as LN.
    split; [exact Hnb|]; split; [exact LN|].
    destruct (Nat.eq_dec (cut (List.length (PB L) + List.length (MX L) + (List.length (MX L) + List.length (PF L))) kk) (List.length (PB L) + List.length (MX L))) as [Ec|Ec].
    - split; [|exists kk; split; [exact Ek|exact Ec]].
      rewrite Ec in Hg.
      destruct (solve_cases F O inv solve L k all0 a Hnb d e q) as [(p & it & iz & iA & _ & _ & _ & _ & R)|(er & _ & R)];
        cbv zeta in R; fold X in R; [|rewrite R in Hg; discriminate Hg].
      destruct R as [[_ R]|(Hk & _)]; [rewrite R in Hg; discriminate Hg|exact Hk].
    - exfalso; exact (solve_misfit F O inv solve L k all0 a Hnb d e q _ r (cut_bound _ kk) Ec Hg).
  Qed.
  Lemma no_leads s r : nf = 0 -> state_space F O ltb qr rank ordqz X J = Ok s -> solve_first_order F O inv solve X s <> Ok r.
  Proof using RT Hqr Hqz all0.
    intros H0 Hs Hg; destruct (solved_inv s r Hs Hg) as (_ & LN & _ & kk & Ek & Ec).
    apply cut_lt in Ek; rewrite LN in Ek; lia.
  Qed.
  Lemma two_mixed s : List.length (PB L) = 0 -> List.length (MX L) <> 1 -> state_space F O ltb qr rank ordqz X J <> Ok s.
  Proof using RT Hqr all0.
    intros P0 M1 H; destruct (Nat.eq_dec nb 0) as [B0|B0]; [exact (no_lags s B0 H)|].
    assert (Hnb : 0 < List.length (PB L) + List.length (MX L)) by (rewrite <- nb_is; lia).
    destruct (state_inv F O finv FT ltb qr rank ordqz Hqr L k all0 Hnb f s H) as (a & Q & _ & _ & _ & Good & _); lia.
  Qed.

  (** Errors of a model of the right shape. *)
  Lemma state_errors er : 0 < List.length (PB L) \/ List.length (MX L) = 1 -> state_space F O ltb qr rank ordqz X J = Err er ->
    (exists j l A, qr j l A = Err er) \/ (exists j A B, ordqz j A B = Err er) \/
    (er = ModelIdErr "" /\ exists A R, qr n (List.length (St L)) A = Ok R /\ rank n (List.length (St L)) (snd R) <> List.length (St L)).
  Proof using RT Hqr Hqz all0.
    intros Good H.
    assert (Hnb : 0 < List.length (PB L) + List.length (MX L)) by lia.
    destruct (rotated F O qr rank X J) as [A|er'] eqn:EA.
    - destruct (rotated_spec F O RT qr rank L k all0 f A Hqr EA) as (a & Q & -> & _).
      destruct (structural_good F O qr rank L k all0 J a EA Hnb Good) as (d & e & Es & _).
      pose proof (state_space_eq F O ltb qr rank ordqz L k J a d e Es) as P; fold X in P; rewrite P in H; clear P.
      destruct (ordqz _ e d) as [q|er'] eqn:Eq; cbn [bind] in H; [|right; left; injection H as ->; eauto].
      pose proof (f_len _ _ _ _ _ _ _ (Hqz _ _ _ _ Eq)) as LN.
      destruct (find_first_total (map (above F O ltb) (q_eig q))) as [kk Ek].
      { intros E; apply map_eq_nil in E; rewrite E in LN; cbn in LN; lia. }
      rewrite Ek in H; discriminate H.
    - unfold state_space, structural in H; rewrite EA in H; cbn [bind] in H; injection H as ->.
      unfold rotated, X, J in EA; rewrite (dc_static L k all0) in EA; cbn [bind] in EA.
      destruct (map (column L k 0) (St L)) as [|c0 cs] eqn:E; [discriminate EA|]; rewrite <- E in EA.
      unfold w in EA; rewrite (take_St F L k all0) in EA; cbn [bind] in EA.
      destruct (qr n _ _) as [R|er'] eqn:Eq; cbn [bind] in EA; [|left; injection EA as ->; eauto].
      rewrite (n_static_is L k all0 Hnb) in EA.
      destruct (Nat.eqb_spec (rank n (List.length (St L)) (snd R)) (List.length (St L))) as [E1|E1].
      + unfold ndot, nmatmul in EA; rewrite Nat.eqb_refl in EA; discriminate EA.
      + right; right; split; [congruence|]; eauto.
  Qed.
  Lemma solve_errors s er : state_space F O ltb qr rank ordqz X J = Ok s -> 0 < k ->
    (forall i, i < nb -> inside_circle F O le (nth i (eigen s) Nan)) -> (forall i, nb <= i < nb + nf -> ~ inside_circle F O le (nth i (eigen s) Nan)) -> 0 < nf ->
    (beyond_one F O le (nth nb (eigen s) Nan) \/ nf = 1) ->
    solve_first_order F O inv solve X s = Err er -> (exists j A, inv j A = Err er) \/ (exists j l A B, solve j l A B = Err er).
  Proof using FT RT OR Hltb Hqr Hqz all0.
    intros Hs Hk Hin Hout Hf Hb Hg.
    destruct (Nat.eq_dec nb 0) as [B0|B0]; [exfalso; exact (no_lags s B0 Hs)|].
    assert (Hnb : 0 < List.length (PB L) + List.length (MX L)) by (rewrite <- nb_is; lia).
    destruct (state_inv F O finv FT ltb qr rank ordqz Hqr L k all0 Hnb f s Hs) as (a & Q & HA & _ & _ & _ & d & e & q & kk & _ & Eq & Ek & ->).
    pose proof (f_len _ _ _ _ _ _ _ (Hqz _ _ _ _ Eq)) as LN; cbn [eigen state_of] in *; rewrite <- nb_is, <- nf_is in LN.
    assert (Ec : cut (nb + nf) kk = nb).
    { rewrite <- LN; apply (cut_exact F O finv FT le OR ltb Hltb (q_eig q) kk nb Ek); [lia|exact Hin|rewrite LN; exact Hout|].
      split; [lia|]; destruct Hb as [Hb|Hb]; [left; exact Hb|right; lia]. }
    rewrite nb_is, nf_is in Ec; rewrite Ec in Hg.
    destruct (solve_cases F O inv solve L k all0 a Hnb d e q) as [(p & it & iz & iA & _ & _ & _ & _ & R)|(er' & Rf & R)];
      cbv zeta in R; fold X in R.
    - destruct R as [[K0 _]|(_ & U & gy & _ & _ & [(g & _ & R)|(er' & Es & R)])]; [lia|rewrite R in Hg; discriminate Hg|].
      rewrite R in Hg; injection Hg as ->; right; eauto.
    - rewrite R in Hg; injection Hg as ->; exact Rf.
  Qed.
End Solved.

(** Roots that are not negative. *)
Section Positive.
  Variable F : Type.
  Variable O : rops F.
  Variable finv : F -> F.
  Variable FT : is_field O finv.
  Let FT' : field_theory (r0 O) (r1 O) (radd O) (rmul O) (rsub O) (ropp O) (rdiv O) finv eq := FT.
  Add Field Ffield51 : FT'.
  Variable le : F -> F -> Prop.
  Hypothesis OR : is_ordered O le.

  Lemma outside_beyond e : not_negative F O le e -> outside_circle F O le e -> beyond_one F O le e.
  Proof using FT OR.
    destruct e as [re im| |]; cbn; [|tauto|tauto]; intros [-> Hp] H; left; intros G; apply H.
    replace (r1 O) with (rmul O (r1 O) (r1 O)) by ring.
    replace (radd O (rmul O re re) (rmul O (r0 O) (r0 O))) with (rmul O re re) by ring.
    apply (mul_mono F O finv FT le OR); assumption.
  Qed.
  Lemma separated_at eig k m : (exists j, j <= List.length eig /\ (forall i, i < j -> inside_circle F O le (nth i eig Nan)) /\
      (forall i, j <= i < List.length eig -> ~ inside_circle F O le (nth i eig Nan))) ->
    (forall e, In e eig -> inside_circle F O le e \/ outside_circle F O le e) -> (forall e, In e eig -> not_negative F O le e) ->
    k = m -> m < List.length eig -> beyond_one F O le (nth m eig Nan) -> (forall i, i < m -> ~ beyond_one F O le (nth i eig Nan)) ->
    (forall e, inside_circle F O le e -> ~ beyond_one F O le e) ->
    separated F O le eig k.
  Proof using FT OR.
    intros (j & Hj & Hin & Hout) Hall Hpos -> Hm Bm Bl Nin; split; [lia|].
    assert (In_ : forall i, i < List.length eig -> In (nth i eig Nan) eig) by (intros i Hi; apply nth_In, Hi).
    assert (I : forall i, i < m -> inside_circle F O le (nth i eig Nan)).
    { intros i Hi; destruct (Hall _ (In_ i ltac:(lia))) as [A|A]; [exact A|exfalso; apply (Bl i Hi), outside_beyond; [apply Hpos, In_; lia|exact A]]. }
    assert (J : j <= m) by (destruct (Nat.le_gt_cases j m) as [A|A]; [exact A|exfalso; apply (Nin _ (Hin m A) Bm)]).
    split; [exact I|]; intros i Hi; destruct (Hall _ (In_ i ltac:(lia))) as [A|A]; [exfalso; apply (Hout i ltac:(lia)), A|exact A].
  Qed.
End Positive.
