(** First-order simulation. *)
From Verif Require Import Base Semantics Nd SimSpec NdProofs Sim.
From Coq Require Import Ring Permutation.

Section SimProofs.
  Variable F : Type.
  Variable O : rops F.
  Variable RT : is_ring O.
  Let RT' : ring_theory (r0 O) (r1 O) (radd O) (rmul O) (rsub O) (ropp O) eq := RT.
  Add Ring Fring : RT'.
  Notation rsum := (Nd.rsum F O).
  Notation get := (Sim.get F O).
  Notation value := (SimSpec.value F O).

  (** ** Rows *)

  Lemma put_at_length i x r : List.length (put_at F i x r) = List.length r.
  Proof. revert i; induction r as [|y r IH]; intros [|i]; cbn [put_at List.length]; auto. Qed.
  Lemma put_at_get i x r j : i < List.length r -> get (put_at F i x r) j = if j =? i then x else get r j.
  Proof.
    revert i j; induction r as [|y r IH]; intros i j Hi; cbn [List.length] in Hi; [lia|].
    destruct i as [|i]; destruct j as [|j]; cbn [put_at]; unfold Sim.get in *; cbn [nth Nat.eqb]; auto.
    apply IH; lia.
  Qed.
  Lemma puts_length ps : forall r, List.length (fold_left (fun r p => put_at F (fst p) (snd p) r) ps r) = List.length r.
  Proof. induction ps as [|p ps IH]; intros r; cbn [fold_left]; [reflexivity|]; rewrite IH; apply put_at_length. Qed.
  Lemma puts_other ps : forall r k, ~ In k (map fst ps) -> (forall p, In p ps -> fst p < List.length r) ->
    get (fold_left (fun r p => put_at F (fst p) (snd p) r) ps r) k = get r k.
  Proof.
    induction ps as [|[i x] ps IH]; intros r k N B; cbn [fold_left]; [reflexivity|]; cbn [map fst snd] in *.
    assert (Hi : i < List.length r) by (apply (B (i, x)); left; reflexivity).
    rewrite IH.
    - rewrite put_at_get by exact Hi; destruct (Nat.eqb_spec k i) as [->|]; [exfalso; apply N; left; reflexivity|reflexivity].
    - intros H; apply N; right; exact H.
    - intros p Hp; rewrite put_at_length; apply B; right; exact Hp.
  Qed.
  Lemma puts_in ps : forall r k x, NoDup (map fst ps) -> (forall p, In p ps -> fst p < List.length r) -> In (k, x) ps ->
    get (fold_left (fun r p => put_at F (fst p) (snd p) r) ps r) k = x.
  Proof.
    induction ps as [|[i y] ps IH]; intros r k x N B H; [destruct H|]; cbn [fold_left map fst snd] in *.
    inversion N as [|? ? N1 N2]; clear N.
    assert (Hi : i < List.length r) by (apply (B (i, y)); left; reflexivity).
    assert (B' : forall p, In p ps -> fst p < List.length (put_at F i y r)).
    { intros p Hp; rewrite put_at_length; apply B; right; exact Hp. }
    destruct H as [H|H].
    - injection H as -> ->.
      rewrite puts_other by assumption; rewrite put_at_get by exact Hi; rewrite Nat.eqb_refl; reflexivity.
    - apply IH; assumption.
  Qed.

  Lemma perm_length n p : Permutation p (seq 0 n) -> List.length p = n.
  Proof. intros P; rewrite (Permutation_length P); apply seq_length. Qed.
  Lemma perm_lt n p i : Permutation p (seq 0 n) -> i < n -> nth i p 0 < n.
  Proof.
    intros P Hi; assert (H : In (nth i p 0) (seq 0 n)).
    { apply (Permutation_in _ P), nth_In; rewrite (perm_length _ _ P); exact Hi. }
    apply in_seq in H; lia.
  Qed.
  Lemma perm_onto n p v : Permutation p (seq 0 n) -> v < n -> exists i, i < n /\ nth i p 0 = v.
  Proof.
    intros P Hv; assert (H : In v p) by (apply (Permutation_in _ (Permutation_sym P)), in_seq; lia).
    destruct (In_nth _ _ 0 H) as (i & Hi & E); rewrite (perm_length _ _ P) in Hi; eauto.
  Qed.

  Lemma assign_ok n order v g : Permutation order (seq 0 n) -> spread F n v = Ok g ->
    exists r, assign F O n order v = Ok r /\ List.length r = n /\ forall i, i < n -> get r (nth i order 0) = g i.
  Proof.
    intros P E; unfold assign; rewrite (perm_length _ _ P), E; cbn [bind].
    assert (B : forallb (fun k => k <? n) order = true).
    { apply forallb_forall; intros k Hk; apply Nat.ltb_lt.
      apply (Permutation_in _ P), in_seq in Hk; lia. }
    rewrite B; eexists; split; [reflexivity|].
    assert (L : List.length (map g (seq 0 n)) = List.length order) by (rewrite map_length, seq_length, (perm_length _ _ P); reflexivity).
    assert (M : map fst (combine order (map g (seq 0 n))) = order).
    { clear - L; revert L; generalize (map g (seq 0 n)); induction order as [|k o IH]; intros [|y l] L; cbn [combine map fst List.length] in *;
        try reflexivity; try discriminate; f_equal; apply IH; congruence. }
    split; [rewrite puts_length, repeat_length; reflexivity|].
    intros i Hi; apply puts_in.
    - rewrite M; apply (Permutation_NoDup (Permutation_sym P)), seq_NoDup.
    - intros [k x] Hp; cbn [fst]; rewrite repeat_length.
      apply in_combine_l, (Permutation_in _ P), in_seq in Hp; lia.
    - assert (E2 : (nth i order 0, g i) = nth i (combine order (map g (seq 0 n))) (0, g 0)).
      { rewrite combine_nth by (symmetry; exact L); f_equal.
        rewrite (map_nth g), seq_nth by exact Hi; reflexivity. }
      rewrite E2; apply nth_In; rewrite combine_length, L, (perm_length _ _ P); lia.
  Qed.

  (** ** Vectors, possibly squeezed *)

  Definition vecl (n : nat) (v : nd F) (f : nat -> F) : Prop :=
    (exists f', v = V1 n f' /\ forall i, i < n -> f' i = f i) \/ (n = 1 /\ v = S0 (f 0)).

  Lemma at_lt n i : i < n -> at_ n i = i.
  Proof. unfold at_; destruct (Nat.eqb_spec n 1); lia. Qed.
  Lemma axis_same n : axis n n = Some n.
  Proof. unfold axis; rewrite Nat.eqb_refl; reflexivity. Qed.

  Lemma vecl_add n a b f g : vecl n a f -> vecl n b g -> exists c, nadd F O a b = Ok c /\ vecl n c (fun i => radd O (f i) (g i)).
  Proof.
    intros [(f' & -> & Hf)|[N ->]] [(g' & -> & Hg)|[N' ->]]; unfold nadd, elementwise, nmap; try rewrite axis_same; eexists; (split; [reflexivity|]).
    - left; eexists; split; [reflexivity|]; intros i Hi; cbn beta; rewrite at_lt, Hf, Hg by exact Hi; reflexivity.
    - left; eexists; split; [reflexivity|]; intros i Hi; cbn beta.
      replace i with 0 by lia; rewrite Hf by lia; reflexivity.
    - left; eexists; split; [reflexivity|]; intros i Hi; cbn beta.
      replace i with 0 by lia; rewrite Hg by lia; reflexivity.
    - right; split; [exact N|reflexivity].
  Qed.
  Lemma vecl_spread n v f : vecl n v f -> exists g, spread F n v = Ok g /\ forall i, i < n -> g i = f i.
  Proof.
    intros [(f' & -> & Hf)|[N ->]]; unfold spread.
    - rewrite Nat.eqb_refl; cbn [orb]; eexists; split; [reflexivity|]; intros i Hi; cbn beta; rewrite at_lt by exact Hi; auto.
    - eexists; split; [reflexivity|]; intros i Hi; cbn beta; replace i with 0 by lia; reflexivity.
  Qed.
  Lemma vecl_ext n v f g : vecl n v f -> (forall i, i < n -> f i = g i) -> vecl n v g.
  Proof.
    intros [(f' & -> & Hf)|[-> ->]] H; [left|right].
    - eexists; split; [reflexivity|]; intros i Hi; rewrite Hf, H by exact Hi; reflexivity.
    - split; [reflexivity|]; rewrite (H 0) by lia; reflexivity.
  Qed.
  Lemma vecl_V1 n f : vecl n (V1 n f) f.
  Proof. left; eexists; split; [reflexivity|auto]. Qed.

  (** ** The walk *)

  Lemma walk_ok (step : nat -> row F -> res (row F)) (Q : row F -> Prop) :
    (forall t r, Q r -> exists r', step t r = Ok r' /\ Q r') ->
    forall left t prev, Q prev ->
    exists rs, walk F step t left prev = Ok rs /\ List.length rs = S left /\ (forall r, In r rs -> Q r) /\
      nth 0 rs [] = prev /\ forall i, i < left -> step (t + i) (nth i rs []) = Ok (nth (S i) rs []).
  Proof.
    intros Hs; induction left as [|left IH]; intros t prev Hq; cbn [walk].
    - exists [prev]; split; [reflexivity|]; split; [reflexivity|]; split; [intros r [<-|[]]; exact Hq|].
      split; [reflexivity|]; intros i Hi; lia.
    - destruct (Hs t prev Hq) as (r & Er & Hr); rewrite Er; cbn [bind].
      destruct (IH (S t) r Hr) as (rs & Ers & L & A & H0 & Hi); rewrite Ers; cbn [bind].
      exists (prev :: rs); split; [reflexivity|]; split; [cbn [List.length]; lia|].
      split; [intros x [<-|Hx]; [exact Hq|apply A; exact Hx]|]; split; [reflexivity|].
      intros [|i] Hlt; [rewrite Nat.add_0_r; cbn [nth]; rewrite H0; exact Er|].
      cbn [nth]; rewrite Nat.add_succ_r; apply (Hi i); lia.
  Qed.

  Lemma add_rows_get a b j : j < List.length a -> List.length a = List.length b ->
    get (add_rows F O a b) j = radd O (get a j) (get b j).
  Proof.
    intros Hj L; unfold add_rows, Sim.get.
    rewrite (nth_indep _ (r0 O) (radd O (fst (r0 O, r0 O)) (snd (r0 O, r0 O)))) by (rewrite map_length, combine_length; lia).
    rewrite (map_nth (fun p : F * F => radd O (fst p) (snd p))), combine_nth by exact L; reflexivity.
  Qed.
  Lemma add_rows_length a b : List.length a = List.length b -> List.length (add_rows F O a b) = List.length a.
  Proof. intros L; unfold add_rows; rewrite map_length, combine_length; lia. Qed.

  Lemma get_map_seq n h j : j < n -> get (map h (seq 0 n)) j = h j.
  Proof.
    intros Hj; unfold Sim.get; rewrite (nth_indep _ (r0 O) (h 0)) by (rewrite map_length, seq_length; exact Hj).
    rewrite map_nth, seq_nth by exact Hj; reflexivity.
  Qed.

  (** ** One step *)

  Lemma nmul_S0 x (b : nd F) : nmul F O (S0 x) b = Ok (nmap F (rmul O x) b).
  Proof. destruct b; reflexivity. Qed.

  Variable g : rule F.
  Hypothesis W : proper g.
  Let n := rn g. Let ns := rs g. Let k := rk g.
  Let gy := squeeze F (M2 n ns (ry g)).
  Let gu := squeeze F (M2 n k (ru g)).
  Let dr_state := map (fun s => nth s (rorder g) 0) (rstate g).

  Lemma state_le : ns <= n.
  Proof using W.
    destruct W as (_ & L & D & B & _); subst n ns; rewrite <- L, <- (seq_length (rn g) 0).
    apply NoDup_incl_length; [exact D|]; intros s Hs; apply in_seq; specialize (B s Hs); lia.
  Qed.
  Lemma dr_state_length : List.length dr_state = ns.
  Proof using W. subst dr_state; rewrite map_length; destruct W as (_ & L & _); exact L. Qed.
  Lemma dr_state_nth j : j < ns -> nth j dr_state 0 = state_at g j.
  Proof using W.
    intros Hj; subst dr_state; unfold state_at.
    rewrite (nth_indep _ 0 (nth 0 (rorder g) 0)) by (rewrite map_length; destruct W as (_ & L & _); subst ns; lia).
    rewrite (map_nth (fun s => nth s (rorder g) 0)); reflexivity.
  Qed.
  Lemma picks : mapM (pick (rorder g)) (rstate g) = Ok dr_state.
  Proof using W.
    destruct W as (P & _ & _ & B & _); subst dr_state; revert B; generalize (rstate g); induction l as [|s l IH]; intros B; [reflexivity|].
    cbn [mapM map]; unfold pick at 1.
    rewrite (nth_error_nth' _ 0) by (rewrite (perm_length _ _ P); apply B; left; reflexivity).
    cbn [bind]; rewrite IH by (intros x Hx; apply B; right; exact Hx); reflexivity.
  Qed.

  Lemma dot_state prev : exists v, ndot F O gy (read_state1 F O dr_state prev) = Ok v /\
    vecl n v (fun i => rsum ns (fun j => rmul O (ry g i j) (get prev (state_at g j)))).
  Proof using W RT.
    pose proof state_le as Hle; pose proof dr_state_length as Hl.
    assert (Hn : 0 < n /\ 0 < ns) by (destruct W as (_ & _ & _ & _ & H1 & H2 & _); split; assumption).
    destruct (Nat.eq_dec ns 1) as [E1|N1].
    - pose proof (dr_state_nth 0 ltac:(lia)) as H0.
      destruct dr_state as [|s [|s' l]] eqn:Ed; cbn [List.length] in Hl; try lia.
      cbn [nth] in H0; cbn [read_state1].
      subst gy; unfold squeeze; rewrite E1; cbn [Nat.eqb].
      destruct (Nat.eqb_spec n 1) as [En|Nn]; unfold ndot.
      + rewrite nmul_S0; eexists; split; [reflexivity|]; right; split; [exact En|]; cbn [nmap]; f_equal.
        rewrite rsum_one by exact RT; rewrite H0; reflexivity.
      + eexists; split; [reflexivity|]; left; eexists; split; [reflexivity|]; intros i Hi; cbn beta.
        rewrite rsum_one by exact RT; rewrite H0; reflexivity.
    - assert (G : gy = M2 n ns (ry g)).
      { subst gy; unfold squeeze; destruct (Nat.eqb_spec n 1); [lia|]; destruct (Nat.eqb_spec ns 1); [lia|reflexivity]. }
      assert (R : read_state1 F O dr_state prev = V1 ns (fun j => get prev (nth j dr_state 0))).
      { unfold read_state1; rewrite <- Hl; destruct dr_state as [|s [|s' l]]; cbn [List.length] in Hl; try lia; reflexivity. }
      rewrite G, R; unfold ndot, nmatmul; rewrite Nat.eqb_refl; eexists; split; [reflexivity|].
      left; eexists; split; [reflexivity|]; intros i Hi; cbn beta.
      apply rsum_ext; intros j Hj; rewrite dr_state_nth by exact Hj; reflexivity.
  Qed.

  Hypothesis Hwide : 1 < n \/ k = 1.

  Lemma innovations T u : exists f, nmatmul F O (M2 T k u) (ntrans F (ensure2 F gu)) = Ok (M2 T n f) /\
    forall t i, i < n -> f t i = rsum k (fun l => rmul O (ru g i l) (u t l)).
  Proof using W RT Hwide.
    assert (Hn : 0 < n /\ 0 < k) by (destruct W as (_ & _ & _ & _ & H1 & _ & H2); split; assumption).
    subst gu; unfold squeeze.
    destruct (Nat.eqb_spec n 1) as [En|Nn]; destruct (Nat.eqb_spec k 1) as [Ek|Nk]; try lia; cbn [ensure2 ntrans nmatmul].
    - rewrite Ek; cbn [Nat.eqb]; eexists; split; [rewrite En; reflexivity|].
      intros t i Hi; cbn beta; rewrite !rsum_one by exact RT; replace i with 0 by lia; ring.
    - rewrite Ek; cbn [Nat.eqb]; eexists; split; [reflexivity|].
      intros t i Hi; cbn beta; rewrite !rsum_one by exact RT; ring.
    - rewrite Nat.eqb_refl; eexists; split; [reflexivity|].
      intros t i Hi; cbn beta; apply rsum_ext; intros l Hl; ring.
  Qed.

  Lemma step1_ok (innovs : nat -> nat -> F) T t prev : exists r,
    step1 F O n gy (rorder g) dr_state (matrix_row F (M2 T n innovs) t) prev = Ok r /\ List.length r = n /\
    forall i, i < n -> get r (var_at g i) =
      radd O (rsum ns (fun j => rmul O (ry g i j) (get prev (state_at g j)))) (innovs t i).
  Proof using W RT.
    unfold step1; cbn [matrix_row].
    destruct (dot_state prev) as (a & -> & Ha); cbn [bind].
    destruct (vecl_add _ _ _ _ _ Ha (vecl_V1 n (innovs t))) as (b & -> & Hb); cbn [bind].
    destruct (vecl_spread _ _ _ Hb) as (h & Eh & Hh).
    destruct W as (P & _).
    destruct (assign_ok _ _ _ _ P Eh) as (r & Er & Lr & Hr).
    exists r; split; [exact Er|]; split; [exact Lr|].
    intros i Hi; unfold var_at; rewrite Hr, Hh by exact Hi; reflexivity.
  Qed.

  (** A well-formed first-order simulation succeeds and obeys the decision rule. *)
  Theorem simulate_first_ok ys T u i0 : List.length ys = n -> 0 < T ->
    exists p, simulate_first F O ys gy gu (rorder g) (rstate g) (M2 T k u) (V1 n i0) = Ok p /\
      table F T n p /\
      let x t v := rsub O (value p t v) (get ys v) in
      starts F g (fun v => rsub O (i0 v) (get ys v)) x /\ obeys F O g T u x.
  Proof using W RT Hwide.
    intros Ly HT; unfold simulate_first; rewrite Ly.
    unfold nsub, elementwise; rewrite axis_same; cbn [bind].
    unfold spread; rewrite Nat.eqb_refl; cbn [orb bind rows].
    destruct (Nat.eqb_spec T 0) as [|_]; [lia|].
    destruct (innovations T u) as (f & Ei & Hf); rewrite Ei; cbn [bind].
    rewrite picks; cbn [bind].
    assert (Hpos : 0 < n /\ 0 < ns /\ 0 < k) by (destruct W as (_ & _ & _ & _ & H); exact H).
    assert (Zu : nsize F gu =? 0 = false).
    { apply Nat.eqb_neq; subst gu; unfold squeeze; destruct (n =? 1); destruct (k =? 1); cbn [nsize]; nia. }
    assert (Zy : nsize F gy =? 0 = false).
    { apply Nat.eqb_neq; subst gy; unfold squeeze; destruct (n =? 1); destruct (ns =? 1); cbn [nsize]; nia. }
    rewrite Zu, Zy.
    set (first := map _ (seq 0 n)).
    destruct (walk_ok (fun t prev => step1 F O n gy (rorder g) dr_state (matrix_row F (M2 T n f) t) prev)
                (fun r => List.length r = n)) with (left := T - 1) (t := 0) (prev := first) as (rs & E & L & A & H0 & Hstep).
    - intros t r _; destruct (step1_ok f T t r) as (r' & E & L & _); eauto.
    - subst first; rewrite map_length, seq_length; reflexivity.
    - rewrite E; cbn [bind]; eexists; split; [reflexivity|].
      assert (Tab : table F T n (map (fun r => add_rows F O r ys) rs)).
      { split; [rewrite map_length, L; lia|].
        intros r Hr; apply in_map_iff in Hr; destruct Hr as (r1 & <- & Hr1).
        rewrite add_rows_length; [apply A; exact Hr1|rewrite (A _ Hr1); congruence]. }
      split; [exact Tab|]; cbn zeta.
      assert (Val : forall t v, t < T -> v < n -> rsub O (value (map (fun r => add_rows F O r ys) rs) t v) (get ys v) = get (nth t rs []) v).
      { intros t v Ht Hv; unfold SimSpec.value.
        rewrite (nth_indep _ [] (add_rows F O [] ys)) by (rewrite map_length, L; lia).
        rewrite map_nth with (f := fun r => add_rows F O r ys).
        assert (Lr : List.length (nth t rs []) = n) by (apply A, nth_In; lia).
        change (nth v (add_rows F O (nth t rs []) ys) (r0 O)) with (get (add_rows F O (nth t rs []) ys) v).
        rewrite add_rows_get by lia; ring. }
      split.
      + intros v Hv; rewrite Val by (try exact Hv; lia); rewrite H0; subst first.
        rewrite get_map_seq by exact Hv; cbn beta; rewrite !(at_lt n v) by exact Hv; reflexivity.
      + intros t i Ht Hi.
        assert (Hvi : var_at g i < n) by (destruct W as (P & _); apply perm_lt; assumption).
        rewrite Val by (try assumption; lia).
        specialize (Hstep t ltac:(lia)); change (0 + t) with t in Hstep.
        destruct (step1_ok f T t (nth t rs [])) as (r' & E' & _ & Hr'); rewrite Hstep in E'; injection E' as E'.
        rewrite E', Hr' by exact Hi; change (Sum F O) with rsum; f_equal; [|apply Hf; exact Hi].
        apply rsum_ext; intros j Hj; rewrite Val; [reflexivity|lia|].
        unfold state_at; destruct W as (P & Ls & _ & B & _); apply perm_lt; [exact P|]; apply B, nth_In; subst ns; lia.
  Qed.
End SimProofs.
