(** Proofs about the shock covariance matrix. *)
From Verif Require Import Base Syntax Lexer Parser Eval Semantics Factory Indexing Vars SigmaSpec.

Lemma positions_In (x : string) (names : list string) k j :
  In j (positions x names k) <-> exists i, j = k + i /\ nth_error names i = Some x.
Proof.
  revert k; induction names as [|y names IH]; intros k; cbn [positions].
  - split; [intros []|intros (i & _ & H); destruct i; discriminate].
  - destruct (String.eqb_spec y x) as [->|Hne]; cbn [In]; rewrite IH; split.
    + intros [<-|(i & -> & H)].
      * exists 0; split; [lia|reflexivity].
      * exists (S i); split; [lia|exact H].
    + intros ([|i] & -> & H).
      * left; lia.
      * right; exists i; split; [lia|exact H].
    + intros (i & -> & H); exists (S i); split; [lia|exact H].
    + intros ([|i] & -> & H).
      * cbn in H; congruence.
      * exists i; split; [lia|exact H].
Qed.

Lemma positions_unique (x : string) (names : list string) :
  NoDup names ->
  (positions x names 0 = [] /\ ~ In x names) \/
  exists j, positions x names 0 = [j] /\ nth_error names j = Some x.
Proof.
  intros Hnd.
  assert (Hk : forall k, NoDup (positions x names k)).
  { clear Hnd; induction names as [|y names IH]; intros k; cbn [positions]; [constructor|].
    destruct (String.eqb y x); [|apply IH].
    constructor; [|apply IH].
    rewrite positions_In; intros (i & Hi & _); lia. }
  specialize (Hk 0).
  destruct (positions x names 0) as [|j l] eqn:E.
  - left; split; [reflexivity|].
    intros Hin; apply In_nth_error in Hin as [i Hi].
    assert (In i (positions x names 0)) as H by (apply positions_In; exists i; auto).
    rewrite E in H; destruct H.
  - right; exists j.
    assert (Hj : nth_error names j = Some x).
    { assert (In j (positions x names 0)) as H by (rewrite E; left; reflexivity).
      apply positions_In in H as (i & -> & H); exact H. }
    split; [|exact Hj].
    destruct l as [|j' l]; [reflexivity|exfalso].
    assert (Hj' : nth_error names j' = Some x).
    { assert (In j' (positions x names 0)) as H by (rewrite E; right; left; reflexivity).
      apply positions_In in H as (i & -> & H); exact H. }
    inversion Hk as [|? ? Hni _]; subst; apply Hni; left.
    apply (proj1 (NoDup_nth_error names) Hnd).
    + apply nth_error_Some; congruence.
    + congruence.
Qed.

Section Proofs.
  Variable V : Type.
  Variable zero : V.
  Variable O : ops V.
  Variable isnum : V -> bool.
  Variable stoch : list (svar V).
  Let names := map sv_name stoch.
  Hypothesis Hnd : NoDup names.
  Hypothesis Hself : forall k, In k stoch -> sv_other k <> sv_name k.
  Hypothesis Hvar : forall k, In k stoch -> exists v, sv_variance k = Some v /\ isnum v = true.

  Lemma name_at i k : nth_error stoch i = Some k <-> nth_error stoch i = Some k /\ nth_error names i = Some (sv_name k).
  Proof using.
    split; [|tauto]; intros H; split; [exact H|].
    unfold names; rewrite nth_error_map, H; reflexivity.
  Qed.
  Lemma at_name j x : nth_error names j = Some x -> exists k, nth_error stoch j = Some k /\ sv_name k = x.
  Proof using.
    unfold names; rewrite nth_error_map; destruct (nth_error stoch j) as [k|]; cbn; [|discriminate].
    intros H; injection H as <-; eauto.
  Qed.
  Lemma same_name i j k k' :
    nth_error stoch i = Some k -> nth_error stoch j = Some k' -> sv_name k = sv_name k' -> i = j.
  Proof using Hnd.
    intros Hi Hj He.
    apply (proj1 (NoDup_nth_error names) Hnd).
    - unfold names; rewrite map_length; apply nth_error_Some; congruence.
    - apply name_at in Hi as [_ ->]; apply name_at in Hj as [_ ->]; congruence.
  Qed.

  (** The diagonal before the loop over the pairs. *)
  Definition diag : matrix V :=
    fold_left (fun m (ik : nat * svar V) =>
                match number V isnum (sv_variance (snd ik)) with
                | Some v => put V (fst ik) (fst ik) v m
                | None => m
                end) (enumerate stoch) (fun _ _ => zero).

  Lemma enumerate_In i k : In (i, k) (enumerate stoch) <-> nth_error stoch i = Some k.
  Proof using.
    unfold enumerate.
    assert (H : forall (l : list (svar V)) b, In (i, k) (combine (seq b (List.length l)) l) <-> b <= i /\ nth_error l (i - b) = Some k).
    { clear; induction l as [|a l IH]; intros b; cbn [List.length seq combine In].
      - split; [intros []|intros [_ H]; destruct (i - b); discriminate].
      - rewrite IH; split.
        + intros [H|[H1 H2]].
          * injection H as -> ->; split; [lia|]; rewrite Nat.sub_diag; reflexivity.
          * split; [lia|]; replace (i - b) with (S (i - S b)) by lia; exact H2.
        + intros [H1 H2].
          destruct (Nat.eq_dec i b) as [->|Hne].
          * left; rewrite Nat.sub_diag in H2; injection H2 as ->; reflexivity.
          * right; split; [lia|]; replace (i - b) with (S (i - S b)) in H2 by lia; exact H2. }
    rewrite H, Nat.sub_0_r; split; [tauto|intros; split; [lia|assumption]].
  Qed.

  Lemma diag_spec :
    (forall i j, i <> j -> diag i j = zero) /\
    (forall i k v, nth_error stoch i = Some k -> sv_variance k = Some v -> diag i i = v).
  Proof using Hvar.
    clear Hnd Hself.
    unfold diag.
    assert (H : forall l m,
      (forall i k, In (i, k) l -> nth_error stoch i = Some k) ->
      let m' := fold_left (fun m (ik : nat * svar V) =>
                match number V isnum (sv_variance (snd ik)) with
                | Some v => put V (fst ik) (fst ik) v m
                | None => m
                end) l m in
      (forall i j, i <> j -> m' i j = m i j) /\
      (forall i k v, nth_error stoch i = Some k -> sv_variance k = Some v ->
         (In (i, k) l \/ m i i = v) -> m' i i = v)).
    { induction l as [|[a ka] l IH]; intros m Hl; cbn [fold_left].
      - split; [reflexivity|intros i k v _ _ [[]|H]; exact H].
      - cbn [fst snd].
        assert (Ha : nth_error stoch a = Some ka) by (apply Hl; left; reflexivity).
        destruct (Hvar ka (nth_error_In _ _ Ha)) as (va & Hva & Hn).
        rewrite Hva; cbn [number]; rewrite Hn.
        destruct (IH (put V a a va m)) as [H1 H2]; [intros; apply Hl; right; assumption|].
        split.
        + intros i j Hij; rewrite H1 by exact Hij; unfold put.
          destruct (Nat.eqb_spec i a), (Nat.eqb_spec j a); cbn [andb]; congruence.
        + intros i k v Hk Hv Hor; apply (H2 i k v Hk Hv).
          destruct Hor as [[E|Hin]|Hm]; [injection E as -> -> | left; exact Hin | ].
          * right; unfold put; rewrite Nat.eqb_refl; cbn [andb]; congruence.
          * right; unfold put; destruct (Nat.eqb_spec i a) as [->|]; cbn [andb]; [congruence|exact Hm]. }
    destruct (H (enumerate stoch) (fun _ _ => zero)) as [H1 H2]; [intros; apply enumerate_In; assumption|].
    split; [exact H1|].
    intros i k v Hk Hv; apply (H2 i k v Hk Hv); left; apply enumerate_In; exact Hk.
  Qed.

  (** What holds of the matrix when the shocks before [t] have been treated. *)
  Definition good (t : nat) (m : matrix V) : Prop :=
    (forall i k v, nth_error stoch i = Some k -> sv_variance k = Some v -> m i i = v) /\
    (forall i j, m i j = m j i) /\
    (forall i j, i <> j -> (t <= i \/ ~ states V isnum stoch i j) -> (t <= j \/ ~ states V isnum stoch j i) -> m i j = zero) /\
    (forall i j, i < t -> states V isnum stoch i j -> (states V isnum stoch j i -> j < t -> j < i) ->
       stated V O isnum stoch i j (m i j)).

  Lemma number_Some o v : number V isnum o = Some v <-> o = Some v /\ isnum v = true.
  Proof using.
    unfold number; destruct o as [w|]; [|split; [discriminate|intros [H _]; discriminate]].
    destruct (isnum w) eqn:E; split.
    - intros H; injection H as <-; auto.
    - intros [H _]; exact H.
    - discriminate.
    - intros [H H']; injection H as <-; congruence.
  Qed.
  Lemma number_None o : number V isnum o = None <-> forall v, o = Some v -> isnum v = false.
  Proof using.
    unfold number; destruct o as [w|].
    - destruct (isnum w) eqn:E; split.
      + discriminate.
      + intros H; specialize (H w eq_refl); congruence.
      + intros _ v H; injection H as <-; exact E.
      + reflexivity.
    - split; [discriminate|reflexivity].
  Qed.

  Lemma states_self i : ~ states V isnum stoch i i.
  Proof using Hself.
    intros (k & k' & H1 & H2 & H3 & _).
    assert (k' = k) by congruence; subst k'.
    exact (Hself k (nth_error_In _ _ H1) H3).
  Qed.

  Lemma put_both_one i j c (m : matrix V) a b : i <> j ->
    put_both V i [(j, c)] m a b =
    if ((a =? i) && (b =? j)) || ((a =? j) && (b =? i)) then c else m a b.
  Proof using.
    intros Hij; unfold put_both, put; cbn [fold_left fst snd].
    destruct (Nat.eqb_spec a i), (Nat.eqb_spec b j), (Nat.eqb_spec a j), (Nat.eqb_spec b i);
      subst; cbn [andb orb]; congruence.
  Qed.

  (** The matrix after treating the shock at [t]: unchanged if it states nothing,
      otherwise changed for one pair. *)
  Lemma sigma_shock_cases t k m m' :
    nth_error stoch t = Some k -> good t m ->
    sigma_shock V O isnum names m (t, k) = Ok m' ->
    ((forall j, ~ states V isnum stoch t j) /\ (forall a b, m' a b = m a b)) \/
    exists j c, t <> j /\ states V isnum stoch t j /\ stated V O isnum stoch t j c /\
      (forall j', states V isnum stoch t j' -> j' = j) /\
      forall a b, m' a b = if ((a =? t) && (b =? j)) || ((a =? j) && (b =? t)) then c else m a b.
  Proof using Hnd Hself Hvar.
    intros Hk (Hdiag & Hsym & Hzero & Hst) H.
    unfold sigma_shock in H.
    destruct (positions_unique (sv_other k) names Hnd) as [[Hp Hni]|(j & Hp & Hj)]; rewrite Hp in H.
    - left; split.
      + intros j (k1 & k2 & H1 & H2 & H3 & _).
        assert (k1 = k) by congruence; subst k1.
        apply Hni; rewrite H3; unfold names; apply in_map; eapply nth_error_In; exact H2.
      + destruct (number V isnum (sv_corr k)) as [r|]; cbn [mapM bind] in H;
          destruct (number V isnum (sv_cov k)) as [c|]; cbn [map] in H; injection H as <-; reflexivity.
    - destruct (at_name j _ Hj) as (k' & Hk' & Hname).
      assert (Hne : t <> j).
      { intros ->. assert (k' = k) by congruence; subst k'.
        exact (Hself k (nth_error_In _ _ Hk) (eq_sym Hname)). }
      assert (Huniq : forall j', states V isnum stoch t j' -> j' = j).
      { intros j' (k1 & k2 & H1 & H2 & H3 & _).
        assert (k1 = k) by congruence; subst k1.
        eapply same_name; [exact H2|exact Hk'|congruence]. }
      destruct (number V isnum (sv_cov k)) as [c|] eqn:Ec.
      + apply number_Some in Ec as [Ec Hc].
        right; exists j, c; split; [exact Hne|].
        split; [exists k, k'; repeat split; auto; left; eauto|].
        split; [eapply stated_cov; eauto|].
        split; [exact Huniq|].
        intros a b.
        destruct (number V isnum (sv_corr k)) as [r|] eqn:Er.
        * apply bind_ok in H as (m1 & H1 & H2); injection H2 as <-.
          apply bind_ok in H1 as (jv & Hjv & H1); injection H1 as <-.
          cbn [mapM] in Hjv.
          apply bind_ok in Hjv as ([j1 c1] & Hc1 & Hjv); injection Hjv as <-.
          assert (j1 = j).
          { unfold corr_to_cov in Hc1.
            apply bind_ok in Hc1 as (p & _ & Hc1); apply bind_ok in Hc1 as (s & _ & Hc1).
            apply bind_ok in Hc1 as (c2 & _ & Hc1); injection Hc1 as -> _; reflexivity. }
          subst j1; cbn [map].
          rewrite put_both_one by exact Hne; rewrite put_both_one by exact Hne.
          destruct (((a =? t) && (b =? j)) || ((a =? j) && (b =? t))); reflexivity.
        * cbn [bind map] in H; injection H as <-.
          rewrite put_both_one by exact Hne; reflexivity.
      + destruct (number V isnum (sv_corr k)) as [r|] eqn:Er.
        * apply number_Some in Er as [Er Hr].
          apply bind_ok in H as (m1 & H1 & H2); injection H2 as <-.
          apply bind_ok in H1 as (jv & Hjv & H1); injection H1 as <-.
          cbn [mapM] in Hjv.
          apply bind_ok in Hjv as ([j1 c1] & Hc1 & Hjv); injection Hjv as <-.
          destruct (Hvar k (nth_error_In _ _ Hk)) as (vi & Hvi & _).
          destruct (Hvar k' (nth_error_In _ _ Hk')) as (vj & Hvj & _).
          unfold corr_to_cov in Hc1; rewrite Hvi in Hc1.
          rewrite (Hdiag j k' vj Hk' Hvj) in Hc1.
          apply bind_ok in Hc1 as (p & Hp1 & Hc1); apply bind_ok in Hc1 as (s & Hp2 & Hc1).
          apply bind_ok in Hc1 as (c2 & Hp3 & Hc1); injection Hc1 as <- <-.
          right; exists j, c2; split; [exact Hne|].
          split; [exists k, k'; repeat split; auto; right; eauto|].
          split; [eapply stated_corr; eauto; apply number_None; exact Ec|].
          split; [exact Huniq|].
          intros a b; apply put_both_one; exact Hne.
        * cbn [bind] in H; injection H as <-.
          left; split; [|reflexivity].
          intros j' (k1 & k2 & H1 & H2 & H3 & H4).
          assert (k1 = k) by congruence; subst k1.
          destruct H4 as [(c & Hc & Hn)|(r & Hr & Hn)].
          -- rewrite (proj1 (number_None _) Ec c Hc) in Hn; discriminate.
          -- rewrite (proj1 (number_None _) Er r Hr) in Hn; discriminate.
  Qed.

  Lemma good_step t k m m' :
    nth_error stoch t = Some k -> good t m ->
    sigma_shock V O isnum names m (t, k) = Ok m' -> good (S t) m'.
  Proof using Hnd Hself Hvar.
    intros Hk Hg H.
    pose proof Hg as (Hdiag & Hsym & Hzero & Hst).
    destruct (sigma_shock_cases t k m m' Hk Hg H) as [[Hno Hm]|(j & c & Hne & Hs & Hc & Hu & Hm)].
    - split; [intros i k1 v H1 H2; rewrite Hm; eauto|].
      split; [intros a b; rewrite !Hm; apply Hsym|].
      split.
      + intros a b Hab H1 H2; rewrite Hm; apply Hzero; [exact Hab| |].
        * destruct (Nat.eq_dec a t) as [->|]; [right; apply Hno|]; destruct H1; [left; lia|right; assumption].
        * destruct (Nat.eq_dec b t) as [->|]; [right; apply Hno|]; destruct H2; [left; lia|right; assumption].
      + intros a b Ha Hsab Hlast; rewrite Hm.
        destruct (Nat.eq_dec a t) as [->|]; [destruct (Hno b Hsab)|].
        apply Hst; [lia|exact Hsab|intros; apply Hlast; [assumption|lia]].
    - split.
      { intros i k1 v H1 H2; rewrite Hm.
        destruct (Nat.eqb_spec i t), (Nat.eqb_spec i j); subst; cbn [andb orb]; try congruence; eauto. }
      split.
      { intros a b; rewrite !Hm.
        destruct (Nat.eqb_spec a t), (Nat.eqb_spec b j), (Nat.eqb_spec a j), (Nat.eqb_spec b t);
          subst; cbn [andb orb]; try reflexivity; try congruence; apply Hsym. }
      split.
      + intros a b Hab H1 H2; rewrite Hm.
        destruct (((a =? t) && (b =? j)) || ((a =? j) && (b =? t))) eqn:E.
        * exfalso; apply orb_true_iff in E.
          rewrite !andb_true_iff, !Nat.eqb_eq in E.
          destruct E as [[-> ->]|[-> ->]].
          -- destruct H1 as [H1|H1]; [lia|exact (H1 Hs)].
          -- destruct H2 as [H2|H2]; [lia|exact (H2 Hs)].
        * apply Hzero; [exact Hab| |].
          -- destruct H1; [left; lia|right; assumption].
          -- destruct H2; [left; lia|right; assumption].
      + intros a b Ha Hsab Hlast; rewrite Hm.
        destruct (((a =? t) && (b =? j)) || ((a =? j) && (b =? t))) eqn:E.
        * apply orb_true_iff in E.
          rewrite !andb_true_iff, !Nat.eqb_eq in E.
          destruct E as [[-> ->]|[-> ->]]; [exact Hc|].
          exfalso; specialize (Hlast Hs ltac:(lia)); lia.
        * destruct (Nat.eq_dec a t) as [->|].
          -- exfalso. rewrite (Hu b Hsab) in E. rewrite !Nat.eqb_refl in E; discriminate.
          -- apply Hst; [lia|exact Hsab|intros; apply Hlast; [assumption|lia]].
  Qed.

  Lemma fold_good l t m m' :
    combine (seq t (List.length stoch - t)) l = combine (seq t (List.length stoch - t)) (skipn t stoch) ->
    l = skipn t stoch -> good t m ->
    foldM (sigma_shock V O isnum names) m (combine (seq t (List.length l)) l) = Ok m' ->
    good (t + List.length l) m'.
  Proof using Hnd Hself Hvar.
    intros _; revert t m; induction l as [|k l IH]; intros t m Hl Hg H.
    - cbn in H; injection H as <-; cbn [List.length]; rewrite Nat.add_0_r; exact Hg.
    - cbn [List.length seq combine foldM] in H.
      apply bind_ok in H as (m1 & H1 & H2).
      assert (Hk : nth_error stoch t = Some k).
      { rewrite <- (firstn_skipn t stoch), <- Hl.
        assert (Ht : List.length (firstn t stoch) = t).
        { apply firstn_length_le.
          destruct (le_lt_dec t (List.length stoch)); [assumption|].
          rewrite skipn_all2 in Hl by lia; discriminate. }
        rewrite nth_error_app2 by lia; rewrite Ht, Nat.sub_diag; reflexivity. }
      cbn [List.length]; replace (t + S (List.length l)) with (S t + List.length l) by lia.
      apply (IH (S t) m1); [|eapply good_step; eauto|exact H2].
      replace (S t) with (1 + t) by lia.
      rewrite <- (firstn_skipn t stoch) in Hl.
      assert (He : skipn t stoch = k :: l).
      { symmetry; rewrite (firstn_skipn t stoch) in Hl; exact Hl. }
      clear -He. revert He; generalize stoch; clear.
      induction t as [|t IH]; intros s He.
      + cbn [skipn] in He |- *; subst s; reflexivity.
      + destruct s as [|a s]; [discriminate|].
        cbn [skipn] in He |- *. apply (IH s He).
  Qed.

  Theorem sigma_good m : define_sigma V zero O isnum stoch = Ok m -> good (List.length stoch) m.
  Proof using Hnd Hself Hvar.
    intros H; unfold define_sigma in H; fold diag in H; fold names in H.
    unfold enumerate in H.
    apply (fold_good stoch 0 diag m eq_refl eq_refl); [|exact H].
    destruct diag_spec as [H1 H2].
    split; [exact H2|].
    split.
    { intros i j; destruct (Nat.eq_dec i j) as [->|]; [reflexivity|].
      rewrite !H1 by auto; reflexivity. }
    split; [intros i j Hij _ _; apply H1; exact Hij|].
    intros i j Hi; lia.
  Qed.

  (** The matrix exists when products and square roots of numbers are numbers. *)
  Hypothesis Hmul : forall a b, isnum a = true -> isnum b = true -> exists c, o_bin O BMul a b = Ok c /\ isnum c = true.
  Hypothesis Hsqrt : forall a, isnum a = true -> exists c, o_fun O "sqrt" a = Ok c /\ isnum c = true.

  Lemma step_total t k m : nth_error stoch t = Some k -> good t m -> exists m', sigma_shock V O isnum names m (t, k) = Ok m'.
  Proof using Hnd Hvar Hmul Hsqrt.
    intros Hk (Hdiag & _); unfold sigma_shock.
    destruct (number V isnum (sv_corr k)) as [r|] eqn:Er; [|cbn [bind]; eauto].
    apply number_Some in Er as [Er Hr].
    destruct (positions_unique (sv_other k) names Hnd) as [[-> _]|(j & -> & Hj)]; cbn [mapM bind]; [eauto|].
    destruct (at_name j _ Hj) as (k' & Hk' & _).
    destruct (Hvar k (nth_error_In _ _ Hk)) as (vi & Hvi & Hni).
    destruct (Hvar k' (nth_error_In _ _ Hk')) as (vj & Hvj & Hnj).
    unfold corr_to_cov; rewrite Hvi, (Hdiag j k' vj Hk' Hvj).
    destruct (Hmul vi vj Hni Hnj) as (p & -> & Hp); cbn [bind].
    destruct (Hsqrt p Hp) as (s & -> & Hs); cbn [bind].
    destruct (Hmul s r Hs Hr) as (c & -> & _); cbn [bind]; eauto.
  Qed.

  Theorem sigma_total : exists m, define_sigma V zero O isnum stoch = Ok m.
  Proof using Hnd Hself Hvar Hmul Hsqrt.
    unfold define_sigma; fold diag; fold names; unfold enumerate.
    assert (H : forall l t m, l = skipn t stoch -> good t m ->
      exists m', foldM (sigma_shock V O isnum names) m (combine (seq t (List.length l)) l) = Ok m').
    { induction l as [|k l IH]; intros t m Hl Hg; cbn [List.length seq combine foldM]; [eauto|].
      assert (Hk : nth_error stoch t = Some k /\ l = skipn (S t) stoch).
      { revert Hl; clear; revert t; induction stoch as [|a s IH]; intros t H.
        - destruct t; discriminate.
        - destruct t as [|t]; cbn [skipn nth_error] in *.
          + injection H as -> ->; auto.
          + apply IH in H; exact H. }
      destruct Hk as [Hk Hl'].
      destruct (step_total t k m Hk Hg) as (m1 & Hm1); rewrite Hm1; cbn [bind].
      apply (IH (S t) m1 Hl'); eapply good_step; eauto. }
    apply (H stoch 0); [reflexivity|].
    destruct diag_spec as [H1 H2].
    split; [exact H2|].
    split.
    { intros i j; destruct (Nat.eq_dec i j) as [->|]; [reflexivity|].
      rewrite !H1 by auto; reflexivity. }
    split; [intros i j Hij _ _; apply H1; exact Hij|].
    intros i j Hi; lia.
  Qed.
End Proofs.
