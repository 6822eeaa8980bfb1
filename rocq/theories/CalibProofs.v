From Verif Require Import Base Syntax Lexer Parser Eval EvalSpec EvalProofs Semantics Calib CalibSpec.
From Coq Require Import Relations Permutation Lia.

Lemma twice (l : list string) : ~ NoDup l -> exists a l1 l2 l3, l = l1 ++ a :: l2 ++ a :: l3.
Proof.
  induction l as [|x l IH]; intros H; [exfalso; apply H; constructor|].
  destruct (in_dec string_dec x l) as [Hin|Hn].
  - apply in_split in Hin as (l2 & l3 & ->); exists x, [], l2, l3; reflexivity.
  - destruct IH as (a & l1 & l2 & l3 & ->); [intros N; apply H; constructor; assumption|].
    exists a, (x :: l1), l2, l3; reflexivity.
Qed.

(** ** The order of solving, for an abstract set of right-hand sides *)
Section Order.
  Variable rv : list (string * list string).
  Hypothesis Hnd : NoDup (keys rv).

  Definition dep (x y : string) : Prop := exists r, In (x, r) rv /\ In y r.
  Definition zeros (prec : list (string * nat)) : nat := List.length (filter (fun kp => snd kp =? 0) prec).

  Definition inv_st (st : list (string * nat) * nat) : Prop :=
    keys (fst st) = keys rv /\ snd st = zeros (fst st) /\
    forall k r y p, In (k, r) rv -> lookup k (fst st) = Some p -> 0 < p -> In y r ->
      exists q, lookup y (fst st) = Some q /\ 0 < q < p.

  Lemma lookup_in_keys {A} x (d : list (string * A)) w : lookup x d = Some w -> In x (keys d).
  Proof. intros H; apply lookup_Some_In in H; unfold keys; apply (in_map fst) in H; exact H. Qed.

  Lemma update_keys {A} x (v : A) d w : lookup x d = Some w -> keys (update x v d) = keys d.
  Proof.
    intros H; rewrite keys_update; destruct (mem x (keys d)) eqn:E; [reflexivity|].
    apply mem_false in E; exfalso; apply E; eapply lookup_in_keys; exact H.
  Qed.

  Lemma zeros_update x p d : lookup x d = Some 0 -> 0 < p -> NoDup (keys d) ->
    zeros d = S (zeros (update x p d)).
  Proof.
    intros H Hp; unfold zeros; induction d as [|[k q] d IH]; intros Hd; cbn [lookup update] in *; [discriminate|].
    destruct (String.eqb x k) eqn:E.
    - injection H as ->; cbn [filter snd]; cbn [Nat.eqb List.length].
      destruct p; [lia|]; cbn [Nat.eqb]; reflexivity.
    - inversion Hd; subst; cbn [filter snd]; destruct (q =? 0); cbn [List.length]; rewrite IH by assumption; reflexivity.
  Qed.

  Lemma mapM_prec (r : list string) (prec : list (string * nat)) (ps : list nat) :
    mapM (fun y => match lookup y prec with Some p => Ok p | None => Err KeyErr end) r = Ok ps ->
    forall y, In y r -> exists p, lookup y prec = Some p /\ In p ps.
  Proof.
    revert ps; induction r as [|z r IH]; intros ps H y Hy; [contradiction|]; cbn [mapM] in H.
    apply bind_ok in H as (p & Hp & H); apply bind_ok in H as (ps' & H & Hps); injection Hps as <-.
    destruct Hy as [<-|Hy].
    - destruct (lookup z prec) as [q|]; [|discriminate]; injection Hp as <-; exists q; split; [reflexivity|left; reflexivity].
    - destruct (IH _ H y Hy) as (q & H1 & H2); exists q; split; [exact H1|right; exact H2].
  Qed.
  Lemma mapM_prec_total (r : list string) (prec : list (string * nat)) : (forall y, In y r -> In y (keys prec)) ->
    exists ps, mapM (fun y => match lookup y prec with Some p => Ok p | None => Err KeyErr end) r = Ok ps.
  Proof.
    induction r as [|z r IH]; intros H; cbn [mapM]; [eauto|].
    destruct (lookup z prec) as [q|] eqn:E.
    - cbn [bind]; destruct IH as (ps & ->); [intros y Hy; apply H; right; exact Hy|]; cbn [bind]; eauto.
    - apply lookup_None in E; exfalso; apply E, H; left; reflexivity.
  Qed.
  Lemma in_total p ps : In p ps -> p <= total ps.
  Proof. induction ps as [|q ps IH]; [intros []|]; intros [->|H]; cbn [total fold_right]; [lia|]; specialize (IH H); unfold total in IH; lia. Qed.

  (** One step: nothing changes, or one parameter gets its place. *)
  Lemma visit_spec st st' k r : inv_st st -> In (k, r) rv -> visit_param st (k, r) = Ok st' ->
    inv_st st' /\ (forall x p, lookup x (fst st) = Some p -> 0 < p -> lookup x (fst st') = Some p) /\
    (st' = st \/ snd st = S (snd st')) /\
    ((forall y, In y r -> exists p, lookup y (fst st) = Some p /\ 0 < p) -> exists p, lookup k (fst st') = Some p /\ 0 < p).
  Proof.
    destruct st as [prec n]; intros (I1 & I2 & I3) Hin H; cbn [visit_param fst snd] in *.
    assert (Hk : In k (keys prec)) by (rewrite I1; unfold keys; apply (in_map fst) in Hin; exact Hin).
    destruct (lookup k prec) as [q|] eqn:Ek; [|apply lookup_None in Ek; contradiction].
    destruct q as [|q].
    - apply bind_ok in H as (ps & Hps & H); destruct (forallb (fun p => 0 <? p) ps) eqn:Ef.
      + injection H as <-; cbn [fst snd].
        assert (Hpos : 0 < total ps + 1) by lia.
        assert (Hz : zeros prec = S (zeros (update k (total ps + 1) prec))) by (apply zeros_update; [exact Ek|exact Hpos|rewrite I1; exact Hnd]).
        assert (Hdeps : forall y, In y r -> exists p, lookup y prec = Some p /\ 0 < p <= total ps).
        { intros y Hy; destruct (mapM_prec _ _ _ Hps y Hy) as (p & H1 & H2); exists p; split; [exact H1|].
          rewrite forallb_forall in Ef; specialize (Ef p H2); apply Nat.ltb_lt in Ef; split; [exact Ef|apply in_total; exact H2]. }
        split; [|split; [|split]].
        * split; [cbn [fst]; rewrite (update_keys k (total ps + 1) prec 0 Ek); exact I1|]; split; [cbn [fst snd]; lia|].
          cbn [fst]; intros k' r' y p Hin' Hp Hp0 Hy; rewrite lookup_update in Hp.
          destruct (String.eqb_spec k' k) as [->|Nk].
          -- injection Hp as <-.
             assert (r' = r).
             { pose proof (lookup_In k r' rv Hnd Hin') as L1; pose proof (lookup_In k r rv Hnd Hin) as L2; congruence. }
             subst r'; destruct (Hdeps y Hy) as (q & Hq1 & Hq2); exists q; split; [|lia].
             rewrite lookup_update; destruct (String.eqb_spec y k) as [->|]; [rewrite Ek in Hq1; injection Hq1 as <-; lia|exact Hq1].
          -- destruct (I3 k' r' y p Hin' Hp Hp0 Hy) as (q & Hq1 & Hq2); exists q; split; [|exact Hq2].
             rewrite lookup_update; destruct (String.eqb_spec y k) as [->|]; [rewrite Ek in Hq1; injection Hq1 as <-; lia|exact Hq1].
        * intros x p Hx Hp; rewrite lookup_update; destruct (String.eqb_spec x k) as [->|]; [rewrite Ek in Hx; injection Hx as <-; lia|exact Hx].
        * right; cbn [snd]; lia.
        * intros _; exists (total ps + 1); rewrite lookup_update, String.eqb_refl; split; [reflexivity|lia].
      + injection H as <-; cbn [fst snd]; split; [repeat split; assumption|]; split; [auto|]; split; [auto|].
        intros Hall; exfalso; apply Bool.not_true_iff_false in Ef; apply Ef, forallb_forall; clear Ef.
        intros p Hp; revert Hps Hp; clear - Hall; revert ps; induction r as [|y r IH]; intros ps Hps Hp; cbn [mapM] in Hps.
        * injection Hps as <-; contradiction.
        * apply bind_ok in Hps as (q & Hq & Hps); apply bind_ok in Hps as (qs & Hqs & Hps); injection Hps as <-.
          destruct Hp as [<-|Hp].
          -- destruct (Hall y (or_introl eq_refl)) as (q' & E & Hq'); rewrite E in Hq; injection Hq as <-; apply Nat.ltb_lt; exact Hq'.
          -- apply (IH ltac:(intros z Hz; apply Hall; right; exact Hz) qs Hqs Hp).
    - injection H as <-; cbn [fst snd]; split; [repeat split; assumption|]; split; [auto|]; split; [auto|].
      intros _; exists (S q); split; [exact Ek|lia].
  Qed.

  Lemma pass_spec l : (forall kr, In kr l -> In kr rv) -> forall st st', inv_st st -> foldM visit_param st l = Ok st' ->
    inv_st st' /\ (forall x p, lookup x (fst st) = Some p -> 0 < p -> lookup x (fst st') = Some p) /\
    (st' = st \/ snd st' < snd st) /\
    (forall k r, In (k, r) l -> (forall y, In y r -> exists p, lookup y (fst st) = Some p /\ 0 < p) -> exists p, lookup k (fst st') = Some p /\ 0 < p).
  Proof.
    induction l as [|[k r] l IH]; intros Hl st st' I H; cbn [foldM] in H.
    - injection H as <-; split; [exact I|]; split; [auto|]; split; [auto|]; intros ? ? [].
    - apply bind_ok in H as (st1 & H1 & H).
      destruct (visit_spec st st1 k r I (Hl _ (or_introl eq_refl)) H1) as (J1 & J2 & J3 & J4).
      destruct (IH ltac:(intros; apply Hl; right; assumption) st1 st' J1 H) as (K1 & K2 & K3 & K4).
      split; [exact K1|]; split; [auto|]; split.
      + destruct J3 as [->|J3]; [exact K3|]; destruct K3 as [->|K3]; right; lia.
      + intros k' r' [E|Hin] Hy.
        * injection E as <- <-; destruct (J4 Hy) as (p & Hp & Hp0); exists p; auto.
        * apply (K4 k' r' Hin); intros y Hiny; destruct (Hy y Hiny) as (p & Hp & Hp0); exists p; auto.
  Qed.

  Lemma zeros_pos prec : zeros prec <> 0 <-> exists x, In (x, 0) prec.
  Proof.
    unfold zeros; split.
    - induction prec as [|[k p] prec IH]; cbn [filter snd]; [cbn; lia|].
      destruct (Nat.eqb_spec p 0) as [->|].
      + intros _; exists k; left; reflexivity.
      + intros H; destruct (IH H) as (x & Hx); exists x; right; exact Hx.
    - intros (x & Hx); assert (In (x, 0) (filter (fun kp => snd kp =? 0) prec)) by (apply filter_In; split; [exact Hx|reflexivity]).
      destruct (filter _ prec); [contradiction|cbn; lia].
  Qed.

  (** If every unplaced parameter waits for an unplaced one, there is a cycle. *)
  Lemma waiting_cycle (P : string -> Prop) : (exists x, P x) ->
    (forall x, P x -> exists y, P y /\ dep x y) -> (forall x y, dep x y -> In x (keys rv)) ->
    exists x, clos_trans string dep x x.
  Proof.
    intros (x0 & H0) Hstep Hkeys.
    assert (W : forall n x, P x -> exists l, List.length l = n /\ Forall P (x :: l) /\
      (forall a i b j c, x :: l = a ++ i :: b ++ j :: c -> clos_trans string dep i j)).
    { induction n as [|n IH]; intros x Hx.
      - exists []; split; [reflexivity|]; split; [constructor; [exact Hx|constructor]|].
        intros a i b j c E; apply (f_equal (@List.length string)) in E; rewrite !app_length in E; cbn [List.length] in E; rewrite app_length in E; cbn [List.length] in E; lia.
      - destruct (Hstep x Hx) as (y & Hy & Hd); destruct (IH y Hy) as (l & L1 & L2 & L3).
        exists (y :: l); split; [cbn; lia|]; split; [constructor; assumption|].
        assert (F : forall b j c, y :: l = b ++ j :: c -> clos_trans string dep x j).
        { intros [|z b] j c E; cbn [app] in E.
          - injection E as -> _; apply t_step; exact Hd.
          - injection E as <- E; apply t_trans with y; [apply t_step; exact Hd|apply (L3 [] y b j c); rewrite E; reflexivity]. }
        intros [|z a] i b j c E; cbn [app] in E.
        + injection E as <- E; apply (F b j c E).
        + injection E as _ E; apply (L3 a i b j c E). }
    destruct (W (List.length (keys rv)) x0 H0) as (l & L1 & L2 & L3).
    assert (ND : ~ NoDup (x0 :: l)).
    { intros N; assert (List.length (x0 :: l) <= List.length (keys rv)); [|cbn [List.length] in *; lia].
      apply NoDup_incl_length; [exact N|]; intros z Hz; rewrite Forall_forall in L2; specialize (L2 z Hz).
      destruct (Hstep z L2) as (y & _ & Hd); exact (Hkeys z y Hd). }
    apply twice in ND as (a & l1 & l2 & l3 & E); exists a; apply (L3 _ _ _ _ _ E).
  Qed.

  Definition closed_rhs : Prop := forall k r y, In (k, r) rv -> In y r -> In y (keys rv).
  Definition cyclic : Prop := exists x, clos_trans string dep x x.
  Definition acyclic : Prop := ~ cyclic.

  Lemma pass_total l st : closed_rhs -> (forall kr, In kr l -> In kr rv) -> inv_st st -> exists st', foldM visit_param st l = Ok st'.
  Proof.
    intros Hc; revert st; induction l as [|[k r] l IH]; intros st Hl I; cbn [foldM]; [eauto|].
    assert (S : exists st1, visit_param st (k, r) = Ok st1).
    { destruct st as [prec n]; cbn [visit_param fst snd].
      destruct (lookup k prec) as [[|q]|]; eauto.
      destruct (mapM_prec_total r prec) as (ps & ->); [|cbn [bind]; destruct (forallb _ ps); eauto].
      intros y Hy; destruct I as (I1 & _); cbn [fst] in I1; rewrite I1; apply (Hc k r); [apply Hl; left; reflexivity|exact Hy]. }
    destruct S as (st1 & S); rewrite S; cbn [bind]; apply IH; [intros; apply Hl; right; assumption|].
    apply (visit_spec st st1 k r I (Hl _ (or_introl eq_refl)) S).
  Qed.

  Lemma pass_progress st st' : closed_rhs -> inv_st st -> snd st <> 0 ->
    foldM visit_param st rv = Ok st' -> snd st' < snd st \/ cyclic.
  Proof.
    intros Hc I Hn H; destruct (pass_spec rv ltac:(auto) st st' I H) as (J1 & J2 & [->|J3] & J4); [|left; exact J3].
    right; destruct I as (I1 & I2 & I3).
    apply (waiting_cycle (fun x => lookup x (fst st) = Some 0)).
    - rewrite I2 in Hn; apply zeros_pos in Hn as (x & Hx); exists x; apply lookup_In; [rewrite I1; exact Hnd|exact Hx].
    - intros x Hx.
      assert (Hk : In x (keys rv)) by (rewrite <- I1; eapply lookup_in_keys; exact Hx).
      unfold keys in Hk; apply in_map_iff in Hk as ([k r] & <- & Hin); cbn [fst] in *.
      destruct (existsb (fun y => match lookup y (fst st) with Some (S _) => false | _ => true end) r) eqn:E.
      + apply existsb_exists in E as (y & Hy & Ey); exists y; split; [|exists r; auto].
        destruct (lookup y (fst st)) as [[|p]|] eqn:El; [reflexivity|discriminate|].
        apply lookup_None in El; exfalso; apply El; rewrite I1; exact (Hc k r y Hin Hy).
      + exfalso; destruct (J4 k r Hin) as (p & Hp & Hp0).
        * intros y Hy; destruct (lookup y (fst st)) as [[|p]|] eqn:El; [| exists (S p); split; [reflexivity|lia] |].
          -- exfalso; apply Bool.not_true_iff_false in E; apply E, existsb_exists; exists y; split; [exact Hy|rewrite El; reflexivity].
          -- exfalso; apply Bool.not_true_iff_false in E; apply E, existsb_exists; exists y; split; [exact Hy|rewrite El; reflexivity].
        * rewrite Hx in Hp; injection Hp as <-; lia.
    - intros x y (r & Hin & _); unfold keys; apply (in_map fst) in Hin; exact Hin.
  Qed.

  Lemma passes_spec i : forall st, closed_rhs -> inv_st st -> exists st', passes i rv st = Ok st' /\ inv_st st' /\
    (snd st <= i -> snd st' = 0 \/ cyclic).
  Proof.
    induction i as [|i IH]; intros st Hc I; cbn [passes].
    - exists st; split; [reflexivity|]; split; [exact I|]; intros H; left; lia.
    - destruct (Nat.eqb_spec (snd st) 0) as [E|E].
      + exists st; split; [reflexivity|]; split; [exact I|]; intros _; left; exact E.
      + destruct (pass_total rv st Hc ltac:(auto) I) as (st1 & H1); rewrite H1; cbn [bind].
        destruct (pass_spec rv ltac:(auto) st st1 I H1) as (J & _).
        destruct (IH st1 Hc J) as (st2 & H2 & K & L); exists st2; split; [exact H2|]; split; [exact K|].
        intros Hle; destruct (pass_progress st st1 Hc I E H1) as [Hp|Hcy]; [apply L; lia|right; exact Hcy].
  Qed.

  Lemma initial_inv : inv_st (initial_precedence rv, List.length (initial_precedence rv) - total (map snd (initial_precedence rv))).
  Proof.
    unfold inv_st; cbn [fst snd]; split; [|split].
    - unfold initial_precedence, keys; rewrite map_map; apply map_ext; reflexivity.
    - clear Hnd; unfold initial_precedence, zeros.
      assert (H : forall l : list (string * list string), let p := map (fun kr => (fst kr, match snd kr with [] => 1 | _ => 0 end)) l in
        List.length p = List.length (filter (fun kp => snd kp =? 0) p) + total (map snd p)).
      { intros l p; unfold p; clear p; induction l as [|[k [|y r]] l IH]; [reflexivity| |]; cbn [map fst snd List.length filter total fold_right Nat.eqb] in *; unfold total in IH; lia. }
      specialize (H rv); cbv zeta in H; rewrite H; lia.
    - intros k r y p Hin Hp Hp0 Hy.
      assert (L : lookup k (initial_precedence rv) = Some match r with [] => 1 | _ => 0 end).
      { unfold initial_precedence; apply lookup_In.
        - unfold keys; rewrite map_map; cbn; exact Hnd.
        - apply in_map_iff; exists (k, r); auto. }
      rewrite L in Hp; destruct r; [contradiction|injection Hp as <-; lia].
  Qed.

  (** Sorting. *)
  Lemma insert_perm a l : Permutation (insert_sorted a l) (a :: l).
  Proof.
    induction l as [|b l IH]; cbn [insert_sorted]; [reflexivity|]; destruct (snd a <=? snd b); [reflexivity|].
    rewrite IH; apply perm_swap.
  Qed.
  Lemma sort_perm l : Permutation (sort_by l) l.
  Proof. induction l as [|a l IH]; cbn [sort_by fold_right]; [reflexivity|]; rewrite insert_perm; constructor; exact IH. Qed.
  Definition ascending (l : list (string * nat)) : Prop :=
    forall pre a post b, l = pre ++ a :: post -> In b post -> snd a <= snd b.
  Lemma insert_ascending a l : ascending l -> ascending (insert_sorted a l).
  Proof.
    induction l as [|c l IH]; intros H; cbn [insert_sorted].
    - intros [|x pre] z post b E Hb; [injection E as <- <-; contradiction|destruct pre; discriminate].
    - assert (Hl : ascending l) by (intros pre z post b E Hb; apply (H (c :: pre) z post); [rewrite E; reflexivity|exact Hb]).
      destruct (Nat.leb_spec (snd a) (snd c)) as [Hle|Hgt].
      + intros [|x pre] z post b E Hb; cbn [app] in E.
        * injection E as <- <-; destruct Hb as [<-|Hb]; [exact Hle|]; specialize (H [] c l b eq_refl Hb); lia.
        * injection E as <- E; exact (H pre z post b E Hb).
      + intros [|x pre] z post b E Hb; cbn [app] in E.
        * injection E as <- <-; apply (Permutation_in _ (insert_perm a l)) in Hb as [<-|Hb]; [lia|exact (H [] c l b eq_refl Hb)].
        * injection E as <- E; exact (IH Hl pre z post b E Hb).
  Qed.
  Lemma sort_ascending l : ascending (sort_by l).
  Proof.
    induction l as [|a l IH]; cbn [sort_by fold_right]; [intros [|? ?] ? ? ? E; discriminate|apply insert_ascending; exact IH].
  Qed.

  Definition topological (order : list string) : Prop :=
    NoDup order /\ (forall x, In x order <-> In x (keys rv)) /\
    forall pre x post, order = pre ++ x :: post -> forall y, dep x y -> In y pre.

  Lemma order_spec : closed_rhs ->
    ((exists order, order_precedence rv = Ok order) \/ cyclic) /\
    (forall order, order_precedence rv = Ok order -> topological order /\ acyclic) /\
    (forall e, order_precedence rv = Err e -> exists n, e = CalibErr n) .
  Proof.
    intros Hc; unfold order_precedence; set (n := _ - _).
    destruct (passes_spec (n * (n + 1) / 2) (initial_precedence rv, n) Hc initial_inv) as (st & -> & I & Hz); cbn [bind].
    assert (Ez : existsb (fun kp => snd kp =? 0) (fst st) = false <-> snd st = 0).
    { rewrite (proj1 (proj2 I)); split.
      - intros H; destruct (zeros (fst st)) eqn:E; [reflexivity|exfalso].
        assert (Hne : zeros (fst st) <> 0) by lia; apply zeros_pos in Hne as (x & Hx).
        apply Bool.not_true_iff_false in H; apply H, existsb_exists; exists (x, 0); auto.
      - intros H; apply Bool.not_true_iff_false; intros E; apply existsb_exists in E as ([x p] & Hx & Hp).
        cbn [snd] in Hp; apply Nat.eqb_eq in Hp; subst p; apply (proj2 (zeros_pos (fst st))); [eauto|exact H]. }
    split; [|split].
    - assert (snd st = 0 \/ cyclic) as E0.
      { apply Hz; cbn [snd]; destruct n as [|m]; [cbn; lia|].
        assert (S m <= S m * (S m + 1) / 2); [|assumption]; apply Nat.div_le_lower_bound; nia. }
      destruct E0 as [E0|Hcy]; [apply Ez in E0; rewrite E0; eauto|right; exact Hcy].
    - intros order H; destruct (existsb _ (fst st)) eqn:E; [discriminate|]; injection H as <-.
      apply proj1 in Ez; specialize (Ez eq_refl).
      destruct I as (I1 & I2 & I3).
      assert (Pos : forall x, In x (keys rv) -> exists p, lookup x (fst st) = Some p /\ 0 < p).
      { intros x Hx; rewrite <- I1 in Hx; destruct (lookup x (fst st)) as [p|] eqn:El; [|apply lookup_None in El; contradiction].
        exists p; split; [reflexivity|]; destruct p; [|lia]; exfalso; rewrite I2 in Ez.
        apply (proj2 (zeros_pos (fst st))); [|exact Ez]; exists x; apply lookup_Some_In; exact El. }
      assert (Lt : forall x y, dep x y -> exists p q, lookup x (fst st) = Some p /\ lookup y (fst st) = Some q /\ 0 < q < p).
      { intros x y (r & Hin & Hy); destruct (Pos x) as (p & Hp & Hp0); [unfold keys; apply (in_map fst) in Hin; exact Hin|].
        destruct (I3 x r y p Hin Hp Hp0 Hy) as (q & Hq & Hq0); eauto 6. }
      assert (NDk : NoDup (keys (fst st))) by (rewrite I1; exact Hnd).
      split; [split; [|split]|].
      + apply (Permutation_NoDup (l := map fst (fst st))); [|exact NDk]; apply Permutation_map; symmetry; apply sort_perm.
      + intros x; rewrite <- I1; unfold keys; split; apply Permutation_in, Permutation_map; [|symmetry]; apply sort_perm.
      + intros pre x post E' y Hd; destruct (Lt x y Hd) as (p & q & Hp & Hq & Hlt).
        apply map_eq_app in E' as (lp & lx & E1 & E2 & E3); destruct lx as [|[x' px] lp']; [discriminate|].
        cbn [map fst] in E3; injection E3 as -> E3.
        assert (Hx : In (x, px) (fst st)) by (apply (Permutation_in _ (sort_perm (fst st))); rewrite E1; apply in_app_iff; right; left; reflexivity).
        apply (lookup_In _ _ _ NDk) in Hx; rewrite Hp in Hx; injection Hx as <-.
        assert (Hy : In (y, q) (sort_by (fst st))).
        { apply (Permutation_in _ (Permutation_sym (sort_perm (fst st)))), lookup_Some_In, Hq. }
        rewrite E1 in Hy; apply in_app_iff in Hy as [Hy|[Hy|Hy]].
        * rewrite <- E2; apply (in_map fst) in Hy; exact Hy.
        * injection Hy as -> ->; lia.
        * pose proof (sort_ascending (fst st) lp (x, p) lp' (y, q) E1 Hy); cbn [snd] in *; lia.
      + intros (x & Hx).
        assert (T : forall a b, clos_trans string dep a b -> exists p q, lookup a (fst st) = Some p /\ lookup b (fst st) = Some q /\ q < p).
        { intros a b C; induction C as [a b D|a b c C1 IH1 C2 IH2].
          - destruct (Lt a b D) as (p & q & ? & ? & ?); exists p, q; repeat split; auto; lia.
          - destruct IH1 as (p & q & ? & E1 & ?), IH2 as (q' & r & E2 & ? & ?); rewrite E1 in E2; injection E2 as <-; exists p, r; repeat split; auto; lia. }
        destruct (T x x Hx) as (p & q & E1 & E2 & Hlt); rewrite E1 in E2; injection E2 as <-; lia.
    - intros e H; destruct (existsb _ (fst st)); [|discriminate]; injection H as <-; eauto.
  Qed.

  Lemma order_missing k r y : In (k, r) rv -> In y r -> ~ In y (keys rv) -> order_precedence rv = Err KeyErr.
  Proof.
    intros Hin Hy Hn; unfold order_precedence; set (n := _ - _).
    assert (Hkr : lookup k (initial_precedence rv) = Some 0).
    { unfold initial_precedence; apply lookup_In; [unfold keys; rewrite map_map; exact Hnd|].
      apply in_map_iff; exists (k, r); split; [|exact Hin]; destruct r; [contradiction|reflexivity]. }
    assert (Hn0 : n <> 0).
    { pose proof (proj1 (proj2 initial_inv)) as E; cbn [fst snd] in E; fold n in E; rewrite E; apply zeros_pos; exists k; apply lookup_Some_In; exact Hkr. }
    assert (Hit : exists i, n * (n + 1) / 2 = S i).
    { assert (1 <= n * (n + 1) / 2) by (apply Nat.div_le_lower_bound; nia); exists (n * (n + 1) / 2 - 1); lia. }
    destruct Hit as (i & ->); cbn [passes snd]; destruct (Nat.eqb_spec n 0) as [|_]; [contradiction|].
    assert (F : forall l st, (forall kr, In kr l -> In kr rv) -> inv_st st -> lookup k (fst st) = Some 0 -> In (k, r) l -> foldM visit_param st l = Err KeyErr).
    { induction l as [|[k' r'] l IH]; intros st Hl I Hk Hi; [contradiction|]; cbn [foldM].
      assert (Herr : forall rr (zz : string) (pr : list (string * nat)), In zz rr -> lookup zz pr = None ->
        mapM (fun y0 => match lookup y0 pr with Some p => Ok p | None => Err KeyErr end) rr = Err KeyErr).
      { clear; intros rr zz pr; induction rr as [|z rr IH]; intros Hz Hl; [contradiction|]; cbn [mapM].
        destruct (lookup z pr) as [p|] eqn:E; [|reflexivity]; cbn [bind]; destruct Hz as [->|Hz]; [congruence|].
        rewrite (IH Hz Hl); reflexivity. }
      assert (Hno : lookup y (fst st) = None) by (apply lookup_None; rewrite (proj1 I); exact Hn).
      destruct (String.eqb_spec k' k) as [->|Nk].
      - assert (r' = r).
        { pose proof (lookup_In k r' rv Hnd (Hl _ (or_introl eq_refl))); pose proof (lookup_In k r rv Hnd Hin); congruence. }
        subst r'; destruct st as [prec m]; cbn [visit_param fst snd] in *; rewrite Hk, (Herr r y prec Hy Hno); reflexivity.
      - destruct (visit_param st (k', r')) as [st1|e] eqn:Ev; cbn [bind].
        + destruct (visit_spec st st1 k' r' I (Hl _ (or_introl eq_refl)) Ev) as (J & _).
          apply IH; [intros; apply Hl; right; assumption|exact J| |destruct Hi as [E|Hi]; [congruence|exact Hi]].
          destruct st as [prec m]; cbn [visit_param fst snd] in *; destruct (lookup k' prec) as [[|q]|]; [|injection Ev as <-; exact Hk|injection Ev as <-; exact Hk].
          apply bind_ok in Ev as (ps & _ & Ev); destruct (forallb _ ps); injection Ev as <-; [|exact Hk]; cbn [fst].
          rewrite lookup_update; destruct (String.eqb_spec k k') as [->|]; [congruence|exact Hk].
        + f_equal; destruct st as [prec m]; cbn [visit_param fst snd] in *; destruct (lookup k' prec) as [[|q]|]; try discriminate.
          destruct (mapM _ r') as [ps|e'] eqn:Em; cbn [bind] in Ev; [destruct (forallb _ ps); discriminate|].
          injection Ev as <-; clear - Em; revert e' Em; induction r' as [|z r' IH]; intros e' Em; cbn [mapM] in Em; [discriminate|].
          destruct (lookup z prec); cbn [bind] in Em; [|injection Em as <-; reflexivity].
          destruct (mapM _ r'); cbn [bind] in Em; [discriminate|injection Em as <-; apply IH; reflexivity]. }
    pose proof (F rv (initial_precedence rv, n) ltac:(auto) initial_inv Hkr Hin) as F'; rewrite F'; reflexivity.
  Qed.
End Order.

(** ** Solving *)
Section Solve.
  Variable V : Type.
  Variable O : ops V.
  Variable float_of : text -> option V.
  Variable trunc : V -> option Z.
  Notation pdef := (pdef V).
  Notation entry := (entry V).
  Notation means := (means V float_of trunc).
  Notation normalize := (normalize V float_of trunc).

  Definition entry_means (e : entry) (t : ast V) : Prop := match e with Val v => t = Num v | Tree e => t = e end.
  Lemma normalize1_spec p en : normalize1 V float_of trunc p = Ok en -> forall t, means p t <-> entry_means en t.
  Proof.
    intros H t; destruct p as [v|tx|e|]; cbn [normalize1 CalibSpec.means] in *.
    - injection H as <-; reflexivity.
    - apply bind_ok in H as (e & He & H); injection H as <-; cbn [entry_means]; rewrite He; split; [intros G; injection G as <-; reflexivity|intros ->; reflexivity].
    - destruct e; injection H as <-; reflexivity.
    - discriminate.
  Qed.

  Lemma normalize_spec d c : normalize d = Ok c -> keys c = keys d /\
    (forall x p, In (x, p) d -> exists en, In (x, en) c /\ normalize1 V float_of trunc p = Ok en) /\
    (forall x en, In (x, en) c -> exists p, In (x, p) d /\ normalize1 V float_of trunc p = Ok en).
  Proof.
    unfold Calib.normalize; rewrite mapM_ok; induction 1 as [|[x p] [y en] d c Hh Hf (I1 & I2 & I3)].
    - split; [reflexivity|]; split; intros ? ? [].
    - cbn [fst snd] in Hh; apply bind_ok in Hh as (en' & Hn & Hh); injection Hh as <- <-.
      split; [unfold keys in *; cbn [map fst]; f_equal; exact I1|]; split.
      + intros z q [E|Hin]; [injection E as <- <-; exists en'; split; [left; reflexivity|exact Hn]|].
        destruct (I2 z q Hin) as (e & H1 & H2); exists e; split; [right; exact H1|exact H2].
      + intros z q [E|Hin]; [injection E as <- <-; exists p; split; [left; reflexivity|exact Hn]|].
        destruct (I3 z q Hin) as (e & H1 & H2); exists e; split; [right; exact H1|exact H2].
  Qed.

  Lemma locate_spec e : forall acc xs, locate V e acc = Ok xs ->
    (forall y, In y xs <-> In y acc \/ occurs V y e) /\ algebraic V e /\ (forall y k, ~ occurs_t V y k e).
  Proof.
    induction e as [n|x|x k|u e IH|o l IHl r IHr|g e IH|o l IHl r IHr]; intros acc xs H; cbn [locate algebraic] in *; try discriminate.
    - injection H as <-; split; [|split; [exact I|intros y j G; inversion G]].
      intros y; split; [auto|intros [G|G]; [exact G|inversion G]].
    - injection H as <-; split; [|split; [exact I|intros y j G; inversion G]].
      intros y; destruct (mem x acc) eqn:E.
      + apply mem_In in E; split; [auto|intros [G|G]; [exact G|inversion G; subst; exact E]].
      + rewrite in_app_iff; cbn [In]; split.
        * intros [G|[<-|[]]]; [auto|right; constructor].
        * intros [G|G]; [auto|inversion G; auto].
    - destruct (IH _ _ H) as (I1 & I2 & I3); split; [|split; [exact I2|intros y j G; inversion G; subst; eapply I3; eassumption]].
      intros y; rewrite I1; split; (intros [G|G]; [auto|right]); [constructor; exact G|inversion G; auto].
    - apply bind_ok in H as (xs1 & H1 & H2); destruct (IHl _ _ H1) as (A1 & A2 & A3), (IHr _ _ H2) as (B1 & B2 & B3).
      split; [|split; [split; assumption|intros y j G; inversion G; subst; [eapply A3|eapply B3]; eassumption]].
      intros y; rewrite B1, A1; split.
      + intros [[G|G]|G]; [auto|right; apply O_binl; exact G|right; apply O_binr; exact G].
      + intros [G|G]; [auto|inversion G; auto].
    - destruct (IH _ _ H) as (I1 & I2 & I3); split; [|split; [exact I2|intros y j G; inversion G; subst; eapply I3; eassumption]].
      intros y; rewrite I1; split; (intros [G|G]; [auto|right]); [constructor; exact G|inversion G; auto].
  Qed.
  Lemma locate_total e : forall acc, algebraic V e -> (forall y k, ~ occurs_t V y k e) -> exists xs, locate V e acc = Ok xs.
  Proof.
    induction e as [n|x|x k|u e IH|o l IHl r IHr|g e IH|o l IHl r IHr]; intros acc Ha Ht; cbn [locate algebraic] in *; eauto.
    - exfalso; apply (Ht x k); constructor.
    - apply IH; [exact Ha|intros y j G; apply (Ht y j); constructor; exact G].
    - destruct Ha as [Hl Hr]; destruct (IHl acc Hl) as (xs & ->); [intros y j G; apply (Ht y j); apply T_binl; exact G|].
      cbn [bind]; apply IHr; [exact Hr|intros y j G; apply (Ht y j); apply T_binr; exact G].
    - apply IH; [exact Ha|intros y j G; apply (Ht y j); constructor; exact G].
    - contradiction.
  Qed.

  Definition reads (en : entry) (y : string) : Prop := match en with Tree e => occurs V y e | Val _ => False end.

  Lemma rhs_spec c rv : mapM (rhs_of V) c = Ok rv -> keys rv = keys c /\
    (forall x r, In (x, r) rv -> exists en, In (x, en) c /\ forall y, In y r <-> reads en y) /\
    (forall x en, In (x, en) c -> exists r, In (x, r) rv /\ forall y, In y r <-> reads en y).
  Proof.
    rewrite mapM_ok; induction 1 as [|[x en] [x' r] c rv Hh Hf (I1 & I2 & I3)].
    - split; [reflexivity|]; split; intros ? ? [].
    - assert (E : x' = x /\ forall y, In y r <-> reads en y).
      { unfold rhs_of in Hh; cbn [fst snd] in Hh; destruct en as [v|e].
        - injection Hh as <- <-; split; [reflexivity|intros y; cbn; reflexivity].
        - apply bind_ok in Hh as (xs & Hx & Hh); injection Hh as <- <-; split; [reflexivity|].
          intros y; rewrite (proj1 (locate_spec e [] xs Hx) y); cbn [reads In]; tauto. }
      destruct E as [-> E]; split; [unfold keys in *; cbn [map fst]; f_equal; exact I1|]; split.
      + intros z q [G|Hin]; [injection G as <- <-; exists en; split; [left; reflexivity|exact E]|].
        destruct (I2 z q Hin) as (e & H1 & H2); exists e; split; [right; exact H1|exact H2].
      + intros z q [G|Hin]; [injection G as <- <-; exists r; split; [left; reflexivity|exact E]|].
        destruct (I3 z q Hin) as (e & H1 & H2); exists e; split; [right; exact H1|exact H2].
  Qed.

  (** The state after solving the parameters [pre] of [c0]. *)
  Definition progress (c0 c : list (string * entry)) (pre : list string) : Prop :=
    keys c = keys c0 /\
    (forall x, ~ In x pre -> lookup x c = lookup x c0) /\
    (forall x, In x pre -> exists v, lookup x c = Some (Val v) /\
       match lookup x c0 with
       | Some (Val w) => v = w
       | Some (Tree e) => eval_with V O (entry_get V c) (fun _ _ => Err GenericErr) e = Ok v
       | None => False
       end).

  Lemma entry_get_agree c x c' : (forall y, y <> x -> lookup y c' = lookup y c) ->
    forall e, ~ occurs V x e -> eval_with V O (entry_get V c') (fun _ _ => Err GenericErr) e = eval_with V O (entry_get V c) (fun _ _ => Err GenericErr) e.
  Proof.
    intros H e Hn; apply eval_agree; [|reflexivity]; intros y Hy; unfold entry_get; rewrite H; [reflexivity|].
    intros ->; contradiction.
  Qed.

  Lemma solve_step c0 c c' pre x : progress c0 c pre -> ~ In x pre ->
    (forall z e y, In z pre -> lookup z c0 = Some (Tree e) -> occurs V y e -> In y pre) ->
    (forall e, lookup x c0 = Some (Tree e) -> ~ occurs V x e) ->
    solve_param V O c x = Ok c' -> progress c0 c' (pre ++ [x]).
  Proof.
    intros (P1 & P2 & P3) Hx Hcl Hself H; unfold solve_param in H; rewrite (P2 x Hx) in H.
    assert (G : exists v, c' = update x (Val v) c /\ match lookup x c0 with
       | Some (Val w) => v = w | Some (Tree e) => eval_with V O (entry_get V c) (fun _ _ => Err GenericErr) e = Ok v | None => False end).
    { destruct (lookup x c0) as [[w|e]|]; [injection H as <-; eauto| |discriminate].
      apply bind_ok in H as (v & Hv & H); injection H as <-; eauto. }
    destruct G as (v & -> & Hv).
    assert (Hkx : In x (keys c)).
    { rewrite P1; destruct (lookup x c0) eqn:E; [eapply lookup_in_keys; exact E|contradiction]. }
    assert (Ag : forall e, ~ occurs V x e -> eval_with V O (entry_get V (update x (Val v) c)) (fun _ _ => Err GenericErr) e = eval_with V O (entry_get V c) (fun _ _ => Err GenericErr) e).
    { intros e He; apply entry_get_agree with (x := x); [|exact He]; intros y Ny; rewrite lookup_update; destruct (String.eqb_spec y x); [contradiction|reflexivity]. }
    split; [|split].
    - rewrite keys_update; apply mem_In in Hkx; rewrite Hkx; exact P1.
    - intros y Hy; rewrite lookup_update; destruct (String.eqb_spec y x) as [->|].
      + exfalso; apply Hy, in_app_iff; right; left; reflexivity.
      + apply P2; intros Hin; apply Hy, in_app_iff; left; exact Hin.
    - intros y Hy; rewrite lookup_update; destruct (String.eqb_spec y x) as [->|Ny].
      + exists v; split; [reflexivity|]; destruct (lookup x c0) as [[w|e]|] eqn:E; [exact Hv| |exact Hv].
        rewrite Ag; [exact Hv|exact (Hself e eq_refl)].
      + apply in_app_iff in Hy as [Hy|[Hy|[]]]; [|congruence].
        destruct (P3 y Hy) as (w & Hw & Hm); exists w; split; [exact Hw|].
        destruct (lookup y c0) as [[w'|e]|] eqn:E; [exact Hm| |exact Hm].
        rewrite Ag; [exact Hm|]; intros Ho; exact (Hx (Hcl y e x Hy E Ho)).
  Qed.

  Lemma in_pre rv c0 order : NoDup (keys c0) -> topological rv order -> mapM (rhs_of V) c0 = Ok rv ->
    forall pre x post e y, order = pre ++ x :: post -> lookup x c0 = Some (Tree e) -> occurs V y e -> In y pre.
  Proof.
    intros Hnd (T1 & T2 & T3) Hrv pre x post e y E Hl Ho; apply (T3 pre x post E).
    apply rhs_spec in Hrv as (_ & _ & R3); destruct (R3 x (Tree e) (lookup_Some_In _ _ _ Hl)) as (r & Hin & Hr).
    exists r; split; [exact Hin|]; apply Hr; exact Ho.
  Qed.

  Lemma solve_run rv c0 order : NoDup (keys c0) -> topological rv order -> mapM (rhs_of V) c0 = Ok rv ->
    forall post pre c c', order = pre ++ post -> progress c0 c pre -> foldM (solve_param V O) c post = Ok c' -> progress c0 c' order.
  Proof.
    intros Hnd T Hrv; induction post as [|x post IH]; intros pre c c' E P H; cbn [foldM] in H.
    - injection H as <-; rewrite app_nil_r in E; subst order; exact P.
    - apply bind_ok in H as (c1 & H1 & H).
      assert (Hx : ~ In x pre).
      { destruct T as (T1 & _); rewrite E in T1; apply NoDup_remove_2 in T1; intros G; apply T1, in_app_iff; left; exact G. }
      apply (IH (pre ++ [x]) c1 c'); [rewrite <- app_assoc; exact E| |exact H].
      apply (solve_step c0 c c1 pre x P Hx); [| |exact H1].
      + intros z e y Hz Hl Ho; apply in_split in Hz as (p1 & p2 & ->).
        apply in_app_iff; left; apply (in_pre rv c0 order Hnd T Hrv p1 z (p2 ++ x :: post) e y); [rewrite E, <- app_assoc; reflexivity|exact Hl|exact Ho].
      + intros e Hl Ho; apply Hx; exact (in_pre rv c0 order Hnd T Hrv pre x post e x E Hl Ho).
  Qed.

  Lemma numbers_spec c c' : mapM (number_of V) c = Ok c' -> keys c' = keys c /\
    (forall x v, lookup x c = Some (Val v) <-> lookup x c' = Some v).
  Proof.
    rewrite mapM_ok; induction 1 as [|[x en] [x' v] c c' Hh Hf (I1 & I2)].
    - split; [reflexivity|]; intros x v; cbn; split; discriminate.
    - unfold number_of in Hh; cbn [fst snd] in Hh; destruct en as [w|]; [injection Hh as <- <-|discriminate].
      split; [unfold keys in *; cbn [map fst]; f_equal; exact I1|].
      intros y u; cbn [lookup]; destruct (String.eqb y x); [split; intros G; injection G as <-; reflexivity|apply I2].
  Qed.

  Lemma solve_satisfies d c : NoDup (keys d) -> solve_calibration V O float_of trunc d = Ok c -> satisfies V O float_of trunc c d.
  Proof.
    intros Hnd H; unfold solve_calibration in H.
    apply bind_ok in H as (c0 & H0 & H); apply bind_ok in H as (rv & Hrv & H); apply bind_ok in H as (order & Ho & H); apply bind_ok in H as (c1 & H1 & Hc).
    destruct (normalize_spec d c0 H0) as (N1 & N2 & N3).
    assert (Hnd0 : NoDup (keys c0)) by (rewrite N1; exact Hnd).
    destruct (rhs_spec c0 rv Hrv) as (R1 & R2 & R3).
    assert (Hndr : NoDup (keys rv)) by (rewrite R1; exact Hnd0).
    assert (Hcl : closed_rhs rv).
    { intros k r y Hin Hy; destruct (in_dec string_dec y (keys rv)) as [G|G]; [exact G|].
      rewrite (order_missing rv Hndr k r y Hin Hy G) in Ho; discriminate. }
    destruct (order_spec rv Hndr Hcl) as (_ & Hord & _); destruct (Hord order Ho) as [T _].
    assert (P0 : progress c0 c0 []) by (split; [reflexivity|]; split; [reflexivity|intros x []]).
    pose proof (solve_run rv c0 order Hnd0 T Hrv order [] c0 c1 eq_refl P0 H1) as (P1 & P2 & P3).
    destruct (numbers_spec c1 c Hc) as (M1 & M2).
    split; [rewrite M1, P1; exact N1|].
    intros x p Hin; destruct (N2 x p Hin) as (en & Hen & Hn).
    assert (Hx : In x order).
    { apply (proj1 (proj2 T)); rewrite R1; unfold keys; apply (in_map fst) in Hen; exact Hen. }
    destruct (P3 x Hx) as (v & Hv & Hm); rewrite (lookup_In x en c0 Hnd0 Hen) in Hm.
    exists v; apply M2 in Hv; destruct en as [w|e].
    - exists (Num w); split; [exact Hv|]; split; [apply (normalize1_spec p _ Hn); reflexivity|]; subst; reflexivity.
    - exists e; split; [exact Hv|]; split; [apply (normalize1_spec p _ Hn); reflexivity|].
      rewrite <- Hm; unfold evaluate; apply eval_agree; [|reflexivity]; intros y Hy; cbn [scope_get]; unfold entry_get.
      destruct (lookup y c) as [u|] eqn:Eu; [apply M2 in Eu; rewrite Eu; reflexivity|].
      apply lookup_None in Eu; destruct (lookup y c1) as [[u|t]|] eqn:E1; [| |reflexivity].
      + apply M2 in E1; exfalso; apply Eu; eapply lookup_in_keys; exact E1.
      + exfalso; apply Eu; rewrite M1; eapply lookup_in_keys; exact E1.
  Qed.

  (** Dependencies of the definitions and of the right-hand sides. *)
  Lemma depends_dep d c0 rv : normalize d = Ok c0 -> mapM (rhs_of V) c0 = Ok rv ->
    forall x y, depends V float_of trunc d x y <-> dep rv x y.
  Proof.
    intros H0 Hrv x y; destruct (normalize_spec d c0 H0) as (N1 & N2 & N3); destruct (rhs_spec c0 rv Hrv) as (R1 & R2 & R3); split.
    - intros (p & e & Hin & Hm & Ho); destruct (N2 x p Hin) as (en & Hen & Hn); apply (normalize1_spec p en Hn) in Hm.
      destruct (R3 x en Hen) as (r & Hr & Hy); exists r; split; [exact Hr|]; apply Hy.
      destruct en as [w|e']; cbn [entry_means reads] in *; subst e; [inversion Ho|exact Ho].
    - intros (r & Hr & Hy); destruct (R2 x r Hr) as (en & Hen & Hre); apply Hre in Hy.
      destruct (N3 x en Hen) as (p & Hin & Hn); destruct en as [w|e]; [contradiction|].
      exists p, e; split; [exact Hin|]; split; [apply (normalize1_spec p _ Hn); reflexivity|exact Hy].
  Qed.

  Lemma over_total d : over_params V float_of trunc d -> exists c0 rv, normalize d = Ok c0 /\ mapM (rhs_of V) c0 = Ok rv.
  Proof.
    intros H.
    assert (E1 : exists c0, normalize d = Ok c0).
    { assert (G : forall x p, In (x, p) d -> exists e, means p e) by (intros x p Hin; destruct (H x p Hin) as (e & He & _); eauto).
      clear H; unfold Calib.normalize; induction d as [|[x p] d' IH]; cbn [mapM]; [eauto|].
      destruct (G x p (or_introl eq_refl)) as (e & He).
      assert (E : exists en, normalize1 V float_of trunc p = Ok en).
      { destruct p as [v|t|e'|]; cbn [normalize1 CalibSpec.means] in *; [eauto|rewrite He; cbn [bind]; eauto|destruct e'; eauto|contradiction]. }
      destruct E as (en & E); cbn [fst snd]; rewrite E; cbn [bind].
      destruct IH as (c0 & ->); [intros z q Hz; apply (G z q); right; exact Hz|]; cbn [bind]; eauto. }
    destruct E1 as (c0 & E1); exists c0.
    assert (E2 : exists rv, mapM (rhs_of V) c0 = Ok rv); [|destruct E2 as (rv & E2); eauto].
    destruct (normalize_spec d c0 E1) as (_ & _ & N3); clear E1.
    assert (G : forall x e, In (x, Tree e) c0 -> algebraic V e /\ forall y k, ~ occurs_t V y k e).
    { intros x e Hin; destruct (N3 x (Tree e) Hin) as (p & Hp & Hn); destruct (H x p Hp) as (e' & He & Ha & Ht & _).
      apply (normalize1_spec p _ Hn) in He; cbn [entry_means] in He; subst e'; auto. }
    clear - G; induction c0 as [|[x en] c0 IH]; cbn [mapM]; [eauto|].
    assert (E : exists kr, rhs_of V (x, en) = Ok kr).
    { unfold rhs_of; cbn [fst snd]; destruct en as [v|e]; [eauto|].
      destruct (G x e (or_introl eq_refl)) as [Ha Ht]; destruct (locate_total e [] Ha Ht) as (xs & ->); cbn [bind]; eauto. }
    destruct E as (kr & ->); cbn [bind]; destruct IH as (rv & ->); [intros z e Hz; apply (G z e); right; exact Hz|]; cbn [bind]; eauto.
  Qed.

  Lemma tc_ext (R S : string -> string -> Prop) : (forall x y, R x y <-> S x y) -> forall x y, clos_trans string R x y -> clos_trans string S x y.
  Proof. intros H x y C; induction C as [a b D|a b c _ IH1 _ IH2]; [apply t_step, H, D|eapply t_trans; eassumption]. Qed.

  Lemma over_closed d c0 rv : over_params V float_of trunc d -> normalize d = Ok c0 -> mapM (rhs_of V) c0 = Ok rv -> closed_rhs rv.
  Proof.
    intros H H0 Hrv k r y Hin Hy; destruct (normalize_spec d c0 H0) as (N1 & N2 & N3); destruct (rhs_spec c0 rv Hrv) as (R1 & R2 & R3).
    rewrite R1, N1; assert (D : dep rv k y) by (exists r; auto).
    apply (depends_dep d c0 rv H0 Hrv) in D as (p & e & Hp & Hm & Ho).
    destruct (H k p Hp) as (e' & Hm' & _ & _ & Hk); destruct (N2 k p Hp) as (en & _ & Hn).
    apply (normalize1_spec p en Hn) in Hm; apply (normalize1_spec p en Hn) in Hm'.
    assert (e' = e) by (destruct en; cbn [entry_means] in *; congruence); subst e'; exact (Hk y Ho).
  Qed.

  Notation no_calib := (no_calib V O).
  Lemma eval_no_calib vv pv e n : no_calib -> (forall x n, vv x <> Err (CalibErr n)) -> (forall x k n, pv x k <> Err (CalibErr n)) ->
    eval_with V O vv pv e <> Err (CalibErr n).
  Proof.
    intros (Cb & Cu & Cc & Cf) Hv Hp; induction e as [m|x|x k|u e IH|o l IHl r IHr|g e IH|o l IHl r IHr]; cbn [eval_with]; try congruence; auto.
    - destruct (eval_with V O vv pv e); cbn [bind]; auto.
    - destruct (eval_with V O vv pv l); cbn [bind]; auto; destruct (eval_with V O vv pv r); cbn [bind]; auto.
    - destruct (mem g refused_funcs); [congruence|]; destruct (mem g evaluated_funcs); [|congruence].
      destruct (eval_with V O vv pv e); cbn [bind]; auto.
    - destruct (eval_with V O vv pv l); cbn [bind]; auto; destruct (eval_with V O vv pv r); cbn [bind]; auto.
  Qed.

  Lemma calib_error_iff d : NoDup (keys d) -> no_calib -> over_params V float_of trunc d ->
    ((exists n, solve_calibration V O float_of trunc d = Err (CalibErr n)) <-> circular V float_of trunc d).
  Proof.
    intros Hnd Hno Hov; destruct (over_total d Hov) as (c0 & rv & H0 & Hrv).
    pose proof (over_closed d c0 rv Hov H0 Hrv) as Hcl.
    destruct (normalize_spec d c0 H0) as (N1 & _); destruct (rhs_spec c0 rv Hrv) as (R1 & _).
    assert (Hndr : NoDup (keys rv)) by (rewrite R1, N1; exact Hnd).
    destruct (order_spec rv Hndr Hcl) as (O1 & O2 & O3).
    unfold solve_calibration; rewrite H0; cbn [bind]; rewrite Hrv; cbn [bind]; split.
    - intros (n & H); destruct (order_precedence rv) as [order|er] eqn:E; cbn [bind] in H.
      + exfalso; destruct (foldM (solve_param V O) c0 order) as [c1|er] eqn:E1; cbn [bind] in H.
        * revert H; clear; generalize n; induction c1 as [|[x en] c1 IH]; intros m H; cbn [mapM] in H; [discriminate|].
          unfold number_of at 1 in H; cbn [fst snd] in H; destruct en; cbn [bind] in H; [|discriminate].
          destruct (mapM (number_of V) c1) as [c'|er] eqn:E; cbn [bind] in H; [discriminate|]; injection H as ->; exact (IH m eq_refl).
        * injection H as ->; revert E1; clear - Hno; revert c0; induction order as [|x order IH]; intros c H; cbn [foldM] in H; [discriminate|].
          destruct (solve_param V O c x) as [c1|er] eqn:E; cbn [bind] in H; [exact (IH c1 H)|]; injection H as ->.
          unfold solve_param in E; destruct (lookup x c) as [[v|e]|]; [discriminate| |discriminate].
          destruct (eval_with V O (entry_get V c) (fun _ _ => Err GenericErr) e) as [v|er] eqn:Ee; cbn [bind] in E; [discriminate|]; injection E as ->.
          revert Ee; apply eval_no_calib; [exact Hno| |congruence].
          intros y m; unfold entry_get; destruct (lookup y c) as [[?|?]|]; congruence.
      + injection H as ->.
        destruct O1 as [(order & Eo)|(x & Hx)]; [congruence|]; exists x.
        apply (tc_ext (dep rv) _); [|exact Hx]; intros a b; symmetry; apply (depends_dep d c0 rv H0 Hrv).
    - intros (x & Hx); destruct (order_precedence rv) as [order|er] eqn:E; cbn [bind].
      + exfalso; destruct (O2 order eq_refl) as [_ Ha]; apply Ha; exists x.
        apply (tc_ext (depends V float_of trunc d) _); [|exact Hx]; intros a b; apply (depends_dep d c0 rv H0 Hrv).
      + destruct (O3 er eq_refl) as (n & ->); eauto.
  Qed.

  (** What a successful solution says of the definitions. *)
  Lemma solve_over d c : NoDup (keys d) -> solve_calibration V O float_of trunc d = Ok c ->
    over_params V float_of trunc d /\ ~ circular V float_of trunc d.
  Proof.
    intros Hnd H; unfold solve_calibration in H.
    apply bind_ok in H as (c0 & H0 & H); apply bind_ok in H as (rv & Hrv & H); apply bind_ok in H as (order & Ho & _).
    destruct (normalize_spec d c0 H0) as (N1 & N2 & N3); destruct (rhs_spec c0 rv Hrv) as (R1 & R2 & R3).
    assert (Hndr : NoDup (keys rv)) by (rewrite R1, N1; exact Hnd).
    assert (Hcl : closed_rhs rv).
    { intros k r y Hin Hy; destruct (in_dec string_dec y (keys rv)) as [G|G]; [exact G|].
      rewrite (order_missing rv Hndr k r y Hin Hy G) in Ho; discriminate. }
    split.
    - intros x p Hin; destruct (N2 x p Hin) as (en & Hen & Hn).
      destruct en as [v|e].
      + exists (Num v); split; [apply (normalize1_spec p _ Hn); reflexivity|]; split; [exact I|]; split; [intros y k G; inversion G|intros y G; inversion G].
      + exists e; split; [apply (normalize1_spec p _ Hn); reflexivity|].
        assert (L : exists xs, locate V e [] = Ok xs).
        { apply mapM_ok in Hrv; clear - Hrv Hen; induction Hrv as [|a b l l' Hab Hl IH]; [contradiction|].
          destruct Hen as [->|Hen]; [|exact (IH Hen)]; unfold rhs_of in Hab; cbn [fst snd] in Hab.
          apply bind_ok in Hab as (xs & Hx & _); eauto. }
        destruct L as (xs & L); destruct (locate_spec e [] xs L) as (L1 & L2 & L3); split; [exact L2|]; split; [exact L3|].
        intros y Hy; destruct (R3 x (Tree e) Hen) as (r & Hr & Hyr); rewrite <- N1, <- R1; apply (Hcl x r y Hr), Hyr; exact Hy.
    - intros (x & Hx); destruct (order_spec rv Hndr Hcl) as (_ & O2 & _); destruct (O2 order Ho) as [_ Ha]; apply Ha; exists x.
      apply (tc_ext (depends V float_of trunc d) _); [|exact Hx]; intros a b; apply (depends_dep d c0 rv H0 Hrv).
  Qed.

  Lemma number_total c : (forall x, In x (keys c) -> exists v, lookup x c = Some (Val v)) -> NoDup (keys c) ->
    exists c', mapM (number_of V) c = Ok c'.
  Proof.
    induction c as [|[x en] c IH]; intros H Hnd; cbn [mapM]; [eauto|].
    unfold keys in Hnd; cbn [map fst] in Hnd; apply NoDup_cons_iff in Hnd as [Hx Hnd].
    destruct (H x (or_introl eq_refl)) as (v & Hv); cbn [lookup] in Hv; rewrite String.eqb_refl in Hv; injection Hv as ->.
    unfold number_of at 1; cbn [fst snd bind]; destruct IH as (c' & ->); [|exact Hnd|cbn [bind]; eauto].
    intros y Hy; destruct (H y (or_intror Hy)) as (w & Hw); exists w; cbn [lookup] in Hw.
    destruct (String.eqb_spec y x) as [->|]; [contradiction|exact Hw].
  Qed.

  (** A solution of definitions that are not circular is found. *)
  Definition solution (c : list (string * V)) (d : list (string * pdef)) : Prop :=
    forall x p, In (x, p) d -> exists v e, lookup x c = Some v /\ means p e /\ evaluate V O (SDict c) e = Ok v.

  Lemma solve_complete d c : NoDup (keys d) -> over_params V float_of trunc d -> ~ circular V float_of trunc d ->
    solution c d ->
    exists c', solve_calibration V O float_of trunc d = Ok c' /\ keys c' = keys d /\ forall x, In x (keys d) -> lookup x c' = lookup x c.
  Proof.
    intros Hnd Hov Hnc Hsol; destruct (over_total d Hov) as (c0 & rv & H0 & Hrv).
    pose proof (over_closed d c0 rv Hov H0 Hrv) as Hcl.
    destruct (normalize_spec d c0 H0) as (N1 & N2 & N3); destruct (rhs_spec c0 rv Hrv) as (R1 & R2 & R3).
    assert (Hnd0 : NoDup (keys c0)) by (rewrite N1; exact Hnd).
    assert (Hndr : NoDup (keys rv)) by (rewrite R1; exact Hnd0).
    destruct (order_spec rv Hndr Hcl) as ([(order & Ho)|(x & Hx)] & O2 & _).
    2: { exfalso; apply Hnc; exists x; apply (tc_ext (dep rv) _); [|exact Hx]; intros a b; symmetry; apply (depends_dep d c0 rv H0 Hrv). }
    destruct (O2 order Ho) as [T _].
    assert (Run : forall post pre c1, order = pre ++ post -> progress c0 c1 pre ->
      (forall x, In x pre -> exists v, lookup x c1 = Some (Val v) /\ lookup x c = Some v) ->
      exists c2, foldM (solve_param V O) c1 post = Ok c2 /\ (forall x, In x order -> exists v, lookup x c2 = Some (Val v) /\ lookup x c = Some v)).
    { induction post as [|x post IH]; intros pre c1 E P Hp; cbn [foldM].
      - rewrite app_nil_r in E; subst order; eauto.
      - assert (Hx : ~ In x pre).
        { pose proof (proj1 T) as T1; rewrite E in T1; apply NoDup_remove_2 in T1; intros G; apply T1, in_app_iff; left; exact G. }
        assert (Hk : In x (keys c0)) by (rewrite <- R1; apply (proj1 (proj2 T)); rewrite E; apply in_app_iff; right; left; reflexivity).
        destruct (lookup_key x c0 Hk) as (en & Hen).
        destruct (N3 x en (lookup_Some_In _ _ _ Hen)) as (q & Hq & Hn); destruct (Hsol x q Hq) as (v & e & Hv & Hm & He).
        assert (S : solve_param V O c1 x = Ok (update x (Val v) c1)).
        { unfold solve_param; destruct P as (P1 & P2 & P3); rewrite (P2 x Hx), Hen; apply (normalize1_spec q en Hn) in Hm.
          destruct en as [w|e']; cbn [entry_means] in Hm; subst e; [cbn in He; injection He as ->; reflexivity|].
          assert (Ev : eval_with V O (entry_get V c1) (fun _ _ => Err GenericErr) e' = Ok v); [|rewrite Ev; reflexivity].
          rewrite <- He; unfold evaluate; apply eval_agree; [|reflexivity]; intros y Hy; cbn [scope_get]; unfold entry_get.
          destruct (Hp y) as (u & Hu & Hu'); [exact (in_pre rv c0 order Hnd0 T Hrv pre x post e' y E Hen Hy)|]; rewrite Hu, Hu'; reflexivity. }
        rewrite S; cbn [bind]; apply (IH (pre ++ [x])); [rewrite <- app_assoc; exact E| |].
        + apply (solve_step c0 c1 _ pre x P Hx); [| |exact S].
          * intros z e' y Hz Hl Hoc; apply in_split in Hz as (p1 & p2 & ->); apply in_app_iff; left.
            apply (in_pre rv c0 order Hnd0 T Hrv p1 z (p2 ++ x :: post) e' y); [rewrite E, <- app_assoc; reflexivity|exact Hl|exact Hoc].
          * intros e' Hl Hoc; apply Hx; exact (in_pre rv c0 order Hnd0 T Hrv pre x post e' x E Hl Hoc).
        + intros y Hy; rewrite lookup_update; destruct (String.eqb_spec y x) as [->|Ny]; [eauto|].
          apply in_app_iff in Hy as [Hy|[Hy|[]]]; [exact (Hp y Hy)|congruence]. }
    assert (P0 : progress c0 c0 []) by (split; [reflexivity|]; split; [reflexivity|intros x []]).
    destruct (Run order [] c0 eq_refl P0 (fun x f => match f with end)) as (c2 & H2 & H2').
    pose proof (solve_run rv c0 order Hnd0 T Hrv order [] c0 c2 eq_refl P0 H2) as (P1 & _ & _).
    assert (Hin : forall x, In x (keys d) -> In x order) by (intros x Hx; apply (proj1 (proj2 T)); rewrite R1, N1; exact Hx).
    destruct (number_total c2) as (c' & Hc').
    { intros x Hx; rewrite P1, N1 in Hx; destruct (H2' x (Hin x Hx)) as (v & Hv & _); eauto. }
    { rewrite P1; exact Hnd0. }
    exists c'; unfold solve_calibration; rewrite H0; cbn [bind]; rewrite Hrv; cbn [bind]; rewrite Ho; cbn [bind]; rewrite H2; cbn [bind].
    destruct (numbers_spec c2 c' Hc') as (M1 & M2); split; [exact Hc'|]; split; [rewrite M1, P1; exact N1|].
    intros x Hx; destruct (H2' x (Hin x Hx)) as (v & Hv & Hv'); rewrite Hv'; apply M2; exact Hv.
  Qed.

  Lemma dict_eq {A} (c c' : list (string * A)) : keys c = keys c' -> NoDup (keys c) -> (forall x, In x (keys c) -> lookup x c = lookup x c') -> c = c'.
  Proof using Type.
    revert c'; induction c as [|[x v] c IH]; intros [|[x' v'] c'] Hk Hnd Hl; try discriminate; [reflexivity|].
    unfold keys in *; cbn [map fst] in *; injection Hk as <- Hk; apply NoDup_cons_iff in Hnd as [Hx Hnd].
    f_equal.
    - specialize (Hl x (or_introl eq_refl)); cbn [lookup] in Hl; rewrite String.eqb_refl in Hl; injection Hl as ->; reflexivity.
    - apply IH; [exact Hk|exact Hnd|]; intros y Hy; specialize (Hl y (or_intror Hy)); cbn [lookup] in Hl.
      destruct (String.eqb_spec y x) as [Eyx|]; [rewrite Eyx in Hy; contradiction|exact Hl].
  Qed.

  Lemma solve_iff d c : NoDup (keys d) ->
    (solve_calibration V O float_of trunc d = Ok c <->
     over_params V float_of trunc d /\ ~ circular V float_of trunc d /\ satisfies V O float_of trunc c d).
  Proof.
    intros Hnd; split.
    - intros H; destruct (solve_over d c Hnd H); split; [assumption|]; split; [assumption|]; exact (solve_satisfies d c Hnd H).
    - intros (Hov & Hnc & Hk & Hs); destruct (solve_complete d c Hnd Hov Hnc Hs) as (c' & H' & Hk' & Hl).
      rewrite H'; f_equal; apply dict_eq; [congruence|rewrite Hk'; exact Hnd|]; rewrite Hk'; exact Hl.
  Qed.

  Lemma depends_incl d d' : (forall x p, In (x, p) d -> In (x, p) d') -> forall x y, depends V float_of trunc d x y -> depends V float_of trunc d' x y.
  Proof. intros H x y (p & e & Hin & G); exists p, e; split; [apply H; exact Hin|exact G]. Qed.

  Lemma solve_perm d d' c : NoDup (keys d) -> Permutation d d' -> solve_calibration V O float_of trunc d = Ok c ->
    exists c', solve_calibration V O float_of trunc d' = Ok c' /\ forall x, lookup x c' = lookup x c.
  Proof.
    intros Hnd Hp H; pose proof (solve_satisfies d c Hnd H) as [Hk Hs]; destruct (solve_over d c Hnd H) as [Hov Hnc].
    assert (Hin : forall q, In q d <-> In q d') by (intros q; split; apply Permutation_in; [exact Hp|symmetry; exact Hp]).
    assert (Hks : forall x, In x (keys d) <-> In x (keys d')) by (intros x; split; apply Permutation_in, Permutation_map; [exact Hp|symmetry; exact Hp]).
    assert (Hnd' : NoDup (keys d')) by (apply (Permutation_NoDup (l := keys d)); [apply Permutation_map; exact Hp|exact Hnd]).
    destruct (solve_complete d' c Hnd') as (c' & H' & Hk' & Hl).
    - intros x p Hx; apply Hin in Hx; destruct (Hov x p Hx) as (e & A & B & C & D); exists e; split; [exact A|]; split; [exact B|]; split; [exact C|].
      intros y Hy; apply Hks, D, Hy.
    - intros (x & Hx); apply Hnc; exists x; revert Hx; apply tc_ext; intros a b; split; apply depends_incl; intros z q; apply Hin.
    - intros x p Hx; apply Hs, Hin, Hx.
    - exists c'; split; [exact H'|]; intros x; destruct (in_dec string_dec x (keys d')) as [Hx|Hx]; [exact (Hl x Hx)|].
      transitivity (@None V); [apply lookup_None; rewrite Hk'; exact Hx|symmetry; apply lookup_None; rewrite Hk; rewrite Hks; exact Hx].
  Qed.

  (** ** Assigning parameters *)
  Notation set_param := (set_param V O float_of trunc).
  Notation root_defs := (root_defs V).

  Lemma solve_numbers (c : list (string * V)) : NoDup (keys c) ->
    solve_calibration V O float_of trunc (map (fun kv => (fst kv, DNum (snd kv))) c) = Ok c.
  Proof.
    intros Hnd; set (d := map _ c).
    assert (Hk : keys d = keys c) by (unfold d, keys; rewrite map_map; reflexivity).
    assert (Hd : forall x p, In (x, p) d -> exists v, p = DNum v /\ In (x, v) c).
    { intros x p Hin; apply in_map_iff in Hin as ([y v] & E & Hin); injection E as <- <-; eauto. }
    apply solve_iff; [rewrite Hk; exact Hnd|]; split; [|split; [|split]].
    - intros x p Hin; destruct (Hd x p Hin) as (v & -> & _); exists (Num v); split; [reflexivity|]; split; [exact I|]; split; [intros y k G; inversion G|intros y G; inversion G].
    - intros (x & Hx); assert (N : forall a b, clos_trans string (depends V float_of trunc d) a b -> False); [|exact (N x x Hx)].
      clear x Hx; intros a b C; induction C as [a b D|]; [|assumption]; destruct D as (p & e & Hin & Hm & Hoc).
      destruct (Hd a p Hin) as (v & -> & _); cbn [CalibSpec.means] in Hm; subst e; inversion Hoc.
    - symmetry; exact Hk.
    - intros x p Hin; destruct (Hd x p Hin) as (v & -> & Hin'); exists v, (Num v); split; [apply lookup_In; assumption|]; split; reflexivity.
  Qed.

  Fixpoint wf (k : calibration V) : Prop :=
    match k with
    | Cal (Plain d) c => NoDup (keys d) /\ NoDup (keys c)
    | Cal (Nested k') c => wf k' /\ NoDup (keys c)
    end.
  Lemma wf_solved k : wf k -> NoDup (keys (solved V k)).
  Proof. destruct k as [[d|k] c]; cbn [wf solved]; tauto. Qed.
  Lemma wf_root k : wf k -> NoDup (keys (root_defs k)).
  Proof. revert k; fix IH 1; intros [[d|k] c]; cbn [wf CalibSpec.root_defs]; [tauto|intros [H _]; exact (IH k H)]. Qed.

  Lemma satisfies_NoDup c d : NoDup (keys d) -> satisfies V O float_of trunc c d -> NoDup (keys c).
  Proof. intros H [-> _]; exact H. Qed.

  Lemma set_param_spec x p : forall k k' er, wf k -> set_param x p k = (k', er) ->
    wf k' /\ root_defs k' = update x p (root_defs k) /\
    (er = None -> satisfies V O float_of trunc (solved V k') (root_defs k')) /\
    (er <> None -> solved V k' = solved V k) /\
    (forall c, solve_calibration V O float_of trunc (update x p (root_defs k)) = Ok c -> er = None /\ solved V k' = c) /\
    (forall e, solve_calibration V O float_of trunc (update x p (root_defs k)) = Err e -> er = Some e).
  Proof.
    fix IH 1; intros [[d|k] c] k' er W H; cbn [Calib.set_param wf solved CalibSpec.root_defs definitions] in *.
    - destruct W as [W1 W2]; assert (Wd : NoDup (keys (update x p d))) by (apply NoDup_keys_update; exact W1).
      destruct (solve_calibration V O float_of trunc (update x p d)) as [c'|e] eqn:E; injection H as <- <-; cbn [wf solved CalibSpec.root_defs].
      + pose proof (solve_satisfies _ _ Wd E) as S; split; [split; [exact Wd|exact (satisfies_NoDup _ _ Wd S)]|].
        split; [reflexivity|]; split; [intros _; exact S|]; split; [congruence|]; split; [intros c1 G; injection G as <-; split; reflexivity|discriminate].
      + split; [split; assumption|]; split; [reflexivity|]; split; [discriminate|]; split; [reflexivity|]; split; [discriminate|congruence].
    - destruct W as [W1 W2]; destruct (set_param x p k) as [k1 er1] eqn:E1; destruct (IH k k1 er1 W1 E1) as (A & B & C & D & F & G).
      destruct er1 as [e|]; cbn [definitions] in H.
      + injection H as <- <-; cbn [wf solved CalibSpec.root_defs]; split; [split; assumption|]; split; [exact B|]; split; [discriminate|].
        split; [reflexivity|]; split; [intros c1 Hc; destruct (F c1 Hc); discriminate|exact G].
      + rewrite (solve_numbers (solved V k1) (wf_solved k1 A)) in H; injection H as <- <-; cbn [wf solved CalibSpec.root_defs].
        split; [split; [exact A|exact (wf_solved k1 A)]|]; split; [exact B|]; split; [exact C|]; split; [congruence|]; split; [exact F|exact G].
  Qed.

  Lemma delete_keys {A} x (d : list (string * A)) : forall y, In y (keys (delete x d)) -> In y (keys d).
  Proof using Type.
    intros y; induction d as [|[z v] d IH]; cbn [delete]; [exact (fun f => f)|].
    destruct (String.eqb x z); [intros H; right; exact H|].
    intros [H|H]; [left; exact H|right; exact (IH H)].
  Qed.
  Lemma delete_NoDup {A} x (d : list (string * A)) : NoDup (keys d) -> NoDup (keys (delete x d)).
  Proof using Type.
    induction d as [|[z v] d IH]; intros H; cbn [delete]; [exact H|].
    unfold keys in H; cbn [map fst] in H; apply NoDup_cons_iff in H as [Hz H].
    destruct (String.eqb x z); [exact H|]; unfold keys; cbn [map fst]; constructor; [|exact (IH H)].
    intros G; apply Hz; exact (delete_keys x d z G).
  Qed.
  Lemma del_param_wf x : forall k k' er, wf k -> del_param V x k = (k', er) -> wf k'.
  Proof.
    fix IH 1; intros [[d|k] c] k' er W H; cbn [del_param wf] in *.
    - destruct W as [W1 W2]; destruct (mem x (keys d)).
      + destruct (mem x (keys c)); injection H as <- _; cbn [wf]; split; try apply delete_NoDup; assumption.
      + injection H as <- _; split; assumption.
    - destruct W as [W1 W2]; destruct (del_param V x k) as [k1 [e|]] eqn:E; pose proof (IH _ _ _ W1 E) as W1'.
      + injection H as <- _; split; assumption.
      + destruct (mem x (keys c)); injection H as <- _; cbn [wf]; split; try apply delete_NoDup; assumption.
  Qed.
  Lemma lookup_delete {A} x y (d : list (string * A)) : NoDup (keys d) ->
    lookup y (delete x d) = if String.eqb y x then None else lookup y d.
  Proof.
    induction d as [|[z v] d IH]; intros H; cbn [delete lookup]; [destruct (String.eqb y x); reflexivity|].
    unfold keys in H; cbn [map fst] in H; apply NoDup_cons_iff in H as [Hz H].
    destruct (String.eqb_spec x z) as [->|N].
    - destruct (String.eqb_spec y z) as [->|]; [apply lookup_None; exact Hz|reflexivity].
    - cbn [lookup]; rewrite (IH H); destruct (String.eqb_spec y z) as [->|]; [|reflexivity].
      destruct (String.eqb_spec z x) as [->|]; [congruence|reflexivity].
  Qed.
  Lemma del_param_spec x : forall k k' er, wf k -> del_param V x k = (k', er) ->
    (er = None -> In x (keys (root_defs k)) /\ In x (keys (solved V k)) /\
       root_defs k' = delete x (root_defs k) /\ solved V k' = delete x (solved V k)) /\
    (er <> None -> er = Some KeyErr /\ solved V k' = solved V k).
  Proof.
    fix IH 1; intros [[d|k] c] k' er W H; cbn [del_param wf solved CalibSpec.root_defs] in *.
    - destruct (mem x (keys d)) eqn:E1.
      + destruct (mem x (keys c)) eqn:E2; injection H as <- <-; cbn [solved CalibSpec.root_defs]; (split; [try discriminate|intros X; try (elim X; reflexivity); auto]).
        intros _; rewrite <- !mem_In; auto.
      + injection H as <- <-; split; [discriminate|auto].
    - destruct W as [W1 W2]; destruct (del_param V x k) as [k1 [e|]] eqn:E; destruct (IH _ _ _ W1 E) as [A B].
      + injection H as <- <-; split; [discriminate|]; intros _; cbn [solved]; split; [|reflexivity].
        destruct B as [B _]; [discriminate|exact B].
      + destruct (A eq_refl) as (A1 & _ & A3 & _); destruct (mem x (keys c)) eqn:E2; injection H as <- <-;
          cbn [solved CalibSpec.root_defs]; (split; [try discriminate|intros X; try (elim X; reflexivity); auto]).
        intros _; rewrite <- (mem_In _ (keys c)); auto.
  Qed.
  Lemma reachable_wf k : reachable V O float_of trunc k -> wf k.
  Proof.
    induction 1 as [d k Hd H|k k' _ IH H|k x p k' er _ IH H|k x k' er _ IH H].
    - unfold new_calibration in H; apply bind_ok in H as (c & Hc & H); injection H as <-; cbn [definitions wf] in *.
      split; [exact Hd|]; eapply satisfies_NoDup; [exact Hd|]; exact (solve_satisfies d c Hd Hc).
    - unfold new_calibration in H; apply bind_ok in H as (c & Hc & H); injection H as <-; cbn [definitions wf] in *.
      split; [exact IH|]; rewrite (solve_numbers _ (wf_solved k IH)) in Hc; injection Hc as <-; apply wf_solved; exact IH.
    - exact (proj1 (set_param_spec x p k k' er IH H)).
    - exact (del_param_wf x k k' er IH H).
  Qed.

  Lemma history_failures k l k' : wf k -> history V O float_of trunc k l k' -> Forall (fun a => snd a = false) l ->
    wf k' /\ solved V k' = solved V k.
  Proof.
    intros W H; induction H as [k|k x p k1 l k2 Hs _ IH|k x p e k1 l k2 Hs _ IH]; intros F.
    - auto.
    - apply Forall_cons_iff in F as [F _]; discriminate.
    - apply Forall_cons_iff in F as [_ F]; destruct (set_param_spec x p k k1 (Some e) W Hs) as (W1 & _ & _ & E & _).
      destruct (IH W1 F) as [W2 E2]; split; [exact W2|]; rewrite E2; apply E; discriminate.
  Qed.
  Lemma history_spec k l k' : wf k -> history V O float_of trunc k l k' ->
    wf k' /\ root_defs k' = fold_left (fun d a => update (fst (fst a)) (snd (fst a)) d) l (root_defs k).
  Proof.
    intros W H; induction H as [k|k x p k1 l k2 Hs _ IH|k x p e k1 l k2 Hs _ IH]; cbn [fold_left fst snd]; auto;
      destruct (set_param_spec _ _ _ _ _ W Hs) as (W1 & E & _); destruct (IH W1) as [W2 E2]; rewrite <- E; auto.
  Qed.
  Lemma history_app k l1 l2 k' : history V O float_of trunc k (l1 ++ l2) k' ->
    exists k1, history V O float_of trunc k l1 k1 /\ history V O float_of trunc k1 l2 k'.
  Proof.
    revert k; induction l1 as [|a l1 IH]; intros k H; cbn [app] in H; [exists k; split; [constructor|exact H]|].
    inversion H as [|? ? ? k1 ? ? Hs Hh|? ? ? e k1 ? ? Hs Hh]; subst; destruct (IH _ Hh) as (k2 & A & B); exists k2; (split; [|exact B]).
    - eapply H_ok; eassumption.
    - eapply H_err; eassumption.
  Qed.
End Solve.
