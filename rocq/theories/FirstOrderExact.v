(** Exactly which state spaces are solved. *)
From Verif Require Import Base Nd NdProofs Mat MatProofs SimSpec Indexing IndexingSpec IndexingProofs IndexingProofs2 Moments OrderProofs
  FirstOrder FirstOrderSpec FirstOrderProofs FirstOrderProofs2 FirstOrderProofs3 FirstOrderProofs4 FirstOrderProofs5.

Section Exact.
  Variable F : Type.
  Variable O : rops F.
  Variable finv : F -> F.
  Variable FT : is_field O finv.
  Variable le : F -> F -> Prop.
  Hypothesis OR : is_ordered O le.
  Variable ltb : F -> F -> bool.
  Hypothesis Hltb : forall x y, ltb x y = false <-> le y x.

  Lemma cut_iff eig kk m : find_first (map (above F O ltb) eig) = Ok kk -> (cut (List.length eig) kk = m <-> cut_after F O le eig m).
  Proof using OR Hltb.
    intros H; apply find_first_spec in H as [L0 H]; rewrite map_length in L0, H.
    assert (NE : forall j, j < List.length eig -> nth j (map (above F O ltb) eig) false = above F O ltb (nth j eig Nan)).
    { intros j Hj; rewrite (nth_indep _ false (above F O ltb Nan)) by (rewrite map_length; exact Hj); apply map_nth. }
    unfold cut_after; destruct H as [(c & Hc & Ec & T & Fl)|[Ec Fl]].
    - rewrite NE in T by exact Hc; apply (above_iff F O le OR ltb Hltb) in T.
      assert (Nb : forall i, i < c -> ~ beyond_one F O le (nth i eig Nan)).
      { intros i Hi B; apply (above_iff F O le OR ltb Hltb) in B; specialize (Fl i Hi); rewrite NE in Fl by lia; congruence. }
      rewrite Ec; split.
      + intros <-; left; split; [exact Hc|]; split; assumption.
      + intros [(Hm & Bm & Nm)|[N _]]; [|exfalso; apply (N _ (nth_In eig Nan Hc)), T].
        destruct (Nat.lt_trichotomy c m) as [G|[G|G]]; [exfalso; exact (Nm c G T)|exact G|exfalso; exact (Nb m G Bm)].
    - assert (Nb : forall e, In e eig -> ~ beyond_one F O le e).
      { intros e Ie B; apply (In_nth _ _ Nan) in Ie as (j & Hj & <-); apply (above_iff F O le OR ltb Hltb) in B; specialize (Fl j Hj); rewrite NE in Fl by exact Hj; congruence. }
      rewrite Ec; split.
      + intros <-; right; split; [exact Nb|lia].
      + intros [(Hm & Bm & _)|[_ E]]; [exfalso; exact (Nb _ (nth_In eig Nan Hm) Bm)|lia].
  Qed.

  Variable qr : nat -> nat -> mat F -> res (mat F * mat F).
  Variable rank : nat -> nat -> mat F -> nat.
  Variable ordqz : nat -> mat F -> mat F -> res (schur F).
  Variable inv : nat -> mat F -> res (mat F).
  Variable solve : nat -> nat -> mat F -> mat F -> res (mat F).
  Hypothesis Hqr : qr_routine F O qr.
  Hypothesis Hqz : schur_routine F O le ordqz.
  Variable L : list (list Z).
  Variable k : nat.
  Hypothesis all0 : forall i, i < List.length L -> at_k L i 0 = true.
  Let nb := List.length (members_of L (backward L)).
  Variable f : mat F.
  Let J := M2 (List.length L) (List.length (timed_vars L) + k) f.

  Lemma solve_errors_at s er : state_space F O ltb qr rank ordqz (array L k) J = Ok s -> 0 < k -> cut_after F O le (eigen s) nb ->
    solve_first_order F O inv solve (array L k) s = Err er -> (exists j A, inv j A = Err er) \/ (exists j l A B, solve j l A B = Err er).
  Proof using FT OR Hltb Hqr Hqz all0.
    intros Hs Hk Hc Hg.
    destruct (Nat.eq_dec nb 0) as [B0|B0]; [exfalso; exact (no_lags F O finv FT ltb qr rank ordqz Hqr L k all0 f s B0 Hs)|].
    pose proof (nb_is L k all0) as Nb; fold nb in Nb.
    assert (Hnb : 0 < List.length (PB L) + List.length (MX L)) by lia.
    destruct (state_inv F O finv FT ltb qr rank ordqz Hqr L k all0 Hnb f s Hs) as (a & Q & HA & _ & _ & _ & d & e & q & kk & _ & Eq & Ek & ->).
    pose proof (f_len _ _ _ _ _ _ _ (Hqz _ _ _ _ Eq)) as LN; cbn [eigen state_of] in *.
    apply (proj2 (cut_iff _ _ nb Ek)) in Hc; rewrite LN, Nb in Hc; rewrite Hc in Hg.
    destruct (solve_cases F O inv solve L k all0 a Hnb d e q) as [(p & it & iz & iA & _ & _ & _ & _ & R)|(er' & Rf & R)]; cbv zeta in R.
    - destruct R as [[K0 _]|(_ & U & gy & _ & _ & [(g & _ & R)|(er' & Es & R)])]; [lia|rewrite R in Hg; discriminate Hg|].
      rewrite R in Hg; injection Hg as ->; right; eauto.
    - rewrite R in Hg; injection Hg as ->; exact Rf.
  Qed.
End Exact.
