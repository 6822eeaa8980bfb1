(** Filters: the code's recursion, and the columns of the data. *)
From Verif Require Import Base Semantics Nd NdProofs SimSpec Sim SimProofs3 Mat MatProofs MomentsSpec Moments MomentsProofs MomentsProofs5 FiltersSpec Filters FiltersProofs.
From Coq Require Import Ring.

Section Code.
  Variable F : Type.
  Variable O : rops F.
  Hypothesis RT : is_ring O.
  Let RT' : ring_theory (r0 O) (r1 O) (radd O) (rmul O) (rsub O) (ropp O) eq := RT.
  Add Ring FilRing3 : RT'.
  Notation rsum := (rsum F O).
  Notation meq := (meq F).
  Notation "a + b" := (radd O a b) : F_scope.
  Notation "a - b" := (rsub O a b) : F_scope.
  Notation "a * b" := (rmul O a b) : F_scope.

  Variable potrf potri : nat -> mat F -> option (mat F).
  Hypothesis HI : lapack_inverts F O potrf potri.
  Variable det : nat -> mat F -> F.
  Hypothesis HD : of_entries F det.
  Variable log : F -> F.

  Variable n : nat.
  Variable T Q : mat F.
  Variable locs : list nat.
  Hypothesis HL : forall i, In i locs -> i < n.
  Notation p := (List.length locs).
  Notation loc l := (nth l locs 0).
  Notation step := (kalman_step F O potrf potri (M2 n n T) (M2 n n Q) locs).

  Lemma locs_inside : forallb (fun i => i <? n) locs = true.
  Proof. apply forallb_forall; intros i Hi; apply Nat.ltb_lt, HL, Hi. Qed.

  Lemma inverse_sym m (A B : mat F) : (forall i j, i < m -> j < m -> A i j = A j i) -> inv_sym_pd F potrf potri m A = Ok B ->
    forall i j, i < m -> j < m -> rsum m (fun k => B i k * A k j)%F = if i =? j then r1 O else r0 O.
  Proof.
    intros Hs E; unfold inv_sym_pd in E; destruct (potrf m A) as [C|] eqn:EC; [|discriminate]; destruct (potri m C) as [V|] eqn:EV; [|discriminate].
    injection E as <-; destruct (HI m A C V Hs EC EV) as (B & Bs & BI & BV); intros i j Hi Hj.
    rewrite <- (BI i j Hi Hj); apply (rsum_ext F O); intros k Hk; f_equal; unfold upper_to_symmetric.
    destruct (Nat.ltb_spec k i); [rewrite BV, Bs by lia; reflexivity|apply BV; lia].
  Qed.

  Lemma step_ok y x P Pm x' P' Ft : isM F n n P Pm -> (forall i j, i < n -> j < n -> Pm i j = Pm j i) ->
    step y x P = Ok (x', P', Ft) ->
    isM F p p Ft (fun a b => Pm (loc a) (loc b)) /\
    exists G, (forall i j, i < p -> j < p -> rsum p (fun k => G i k * Pm (loc k) (loc j))%F = if i =? j then r1 O else r0 O) /\
      isM F n n P' (fun i j => rsum n (fun a => T i a * rsum n (fun b =>
        (Pm a b - rsum p (fun m => rsum p (fun l => Pm a (loc l) * G l m) * Pm (loc m) b)) * T j b)) + Q i j)%F.
  Proof.
    intros (f & -> & Hf) Hs E; unfold kalman_step in E.
    repeat match type of E with bind ?a _ = Ok _ => let Z := fresh "Z" in destruct a eqn:Z; cbn [bind] in E; [|discriminate E] end.
    injection E as <- <- <-.
    unfold block in Z1; cbn [take] in Z1; rewrite locs_inside in Z1; cbn [bind take_cols] in Z1; rewrite locs_inside in Z1; injection Z1 as <-.
    cbn [inverse] in Z2; destruct (inv_sym_pd F potrf potri p (fun i j => f (loc i) (loc j))) as [G|] eqn:EG; [|discriminate]; cbn [bind] in Z2; injection Z2 as <-.
    assert (HG : forall i j, i < p -> j < p -> rsum p (fun k => G i k * Pm (loc k) (loc j))%F = if i =? j then r1 O else r0 O).
    { assert (Ll : forall l, l < p -> loc l < n) by (intros l Hl; apply HL, nth_In, Hl).
      assert (Sym : forall u v, u < p -> v < p -> f (loc u) (loc v) = f (loc v) (loc u)) by (intros u v Hu Hv; rewrite !Hf by auto; apply Hs; auto).
      intros i j Hi Hj; rewrite <- (inverse_sym p _ G Sym EG i j Hi Hj).
      apply (rsum_ext F O); intros k Hk; rewrite Hf by auto; reflexivity. }
    assert (Ll : forall l, l < p -> loc l < n) by (intros l Hl; apply HL, nth_In, Hl).
    split; [eexists; split; [reflexivity|]; intros i j Hi Hj; cbn beta; apply Hf; auto|].
    exists G; split; [exact HG|].
    cbn [take_cols] in Z3; rewrite locs_inside in Z3; injection Z3 as <-.
    cbn [nmatmul] in Z4; rewrite Nat.eqb_refl in Z4; injection Z4 as <-.
    cbn [take] in Z7; rewrite locs_inside in Z7; injection Z7 as <-.
    cbn [nmatmul] in Z8; rewrite Nat.eqb_refl in Z8; injection Z8 as <-.
    unfold nsub, elementwise in Z9; cbn [rows cols] in Z9; rewrite !axis_same in Z9; injection Z9 as <-.
    unfold mm3 in Z11; cbn [nmatmul ntrans] in Z11; rewrite !Nat.eqb_refl in Z11; cbn [bind nmatmul] in Z11; rewrite !Nat.eqb_refl in Z11; injection Z11 as <-.
    unfold nadd, elementwise in Z12; cbn [rows cols] in Z12; rewrite !axis_same in Z12; injection Z12 as <-.
    eexists; split; [reflexivity|]; intros i j Hi Hj; cbn [entry]; rewrite !(at_lt n i), !(at_lt n j) by assumption; f_equal.
    apply (rsum_ext F O); intros u Hu; f_equal; apply (rsum_ext F O); intros v Hv; f_equal.
    rewrite !(at_lt n u), !(at_lt n v) by assumption; rewrite Hf by assumption; f_equal.
    apply (rsum_ext F O); intros m Hm; rewrite Hf by auto; f_equal.
    apply (rsum_ext F O); intros l Hl; rewrite Hf by auto; reflexivity.
  Qed.

  Variable R : randoms F.
  Hypothesis LR : lawful F O R.
  Variable P0 : mat F.
  Variable x e : nat -> nat -> rv R.
  Hypothesis HS : state_space F O R n T P0 Q x e.
  Notation y := (obs_of F R x locs).
  Notation cv := (covariance R).
  (** The covariances of the errors of the predictions [yh]. *)
  Definition errors_cov (yh : nat -> nat -> rv R) (t a b : nat) : F :=
    cv (error F O R (y t a) (yh t a)) (error F O R (y t b) (yh t b)).

  Lemma loop_ok data k : forall i P Pm xc llk r xh, isM F n n P Pm -> predicts F O R n x locs i Pm xh ->
    kalman_loop F O potrf potri det log data (M2 n n T) (M2 n n Q) locs i k xc P llk = Ok r ->
    exists yh : nat -> nat -> rv R, (forall t l, t < k -> l < p -> best F O R p y (t + i) (y (t + i) l) (yh t l)) /\
      r = (llk + rsum k (fun t => log (det p (fun a b => cv (error F O R (y (t + i) a) (yh t a)) (error F O R (y (t + i) b) (yh t b))))))%F.
  Proof.
    induction k as [|k IH]; intros i P Pm xc llk r xh HP Hx E; cbn [kalman_loop] in E.
    - injection E as <-; exists (fun _ _ => rv_zero R); split; [intros t l Ht; lia|cbn; ring].
    - destruct (data_row F i data) as [yr|] eqn:Ey; [|discriminate]; cbn [bind] in E.
      destruct (kalman_step F O potrf potri (M2 n n T) (M2 n n Q) locs yr xc P) as [[[x' P'] Ft]|] eqn:Es; [|discriminate]; cbn [bind fst snd] in E.
      destruct (step_ok yr xc P Pm x' P' Ft HP) as (HF & G & HG & HP'); [intros a b Ha Hb; apply (predicts_sym F O R LR n x locs i Pm xh); assumption|exact Es|].
      pose proof (step_predicts F O RT R LR n T P0 Q x e HS locs HL i Pm xh Hx G HG) as Hx'.
      destruct (IH _ _ _ _ _ _ _ HP' Hx' E) as (yh & Hyh & ->).
      exists (fun t l => match t with 0 => xh (loc l) | S t' => yh t' l end); split.
      + intros [|t] l Ht Hl; [apply (proj1 Hx), HL, nth_In, Hl|]; replace (S t + i)%nat with (t + S i)%nat by lia; apply Hyh; lia.
      + rewrite <- (Nat.add_1_l k), (rsum_split F O RT), (rsum_one F O RT); cbn [Nat.add].
        replace (logdet F O det log Ft) with (log (det p (fun a b => cv (error F O R (y i a) (xh (loc a))) (error F O R (y i b) (xh (loc b)))))).
        * replace (rsum k (fun t => log (det p (fun a b => cv (error F O R (y (t + S i) a) (yh t a)) (error F O R (y (t + S i) b) (yh t b))))))
            with (rsum k (fun t => log (det p (fun a b => cv (error F O R (y (S (t + i)) a) (yh t a)) (error F O R (y (S (t + i)) b) (yh t b)))))); [ring|].
          apply (rsum_ext F O); intros t Ht; f_equal; apply HD; intros a b Ha Hb; replace (t + S i)%nat with (S (t + i))%nat by lia; reflexivity.
        * destruct HF as (f & -> & Hf); cbn [logdet]; f_equal; apply HD; intros a b Ha Hb; rewrite Hf by assumption.
          apply (proj2 Hx); apply HL, nth_In; assumption.
  Qed.

  (** The returned number, with any best predictions of the observations. *)
  Lemma simple_ok r c f x0 llk :
    simple_kalman F O potrf potri det log (M2 r c f) x0 (M2 n n P0) (M2 n n T) (M2 n n Q) locs = Ok llk ->
    (exists yh, forall t l, t < r -> l < p -> best F O R p y t (y t l) (yh t l)) /\
    forall yh, (forall t l, t < r -> l < p -> best F O R p y t (y t l) (yh t l)) ->
    llk = rsum r (fun t => log (det p (errors_cov yh t))).
  Proof.
    intros E; cbn [simple_kalman] in E.
    destruct (loop_ok _ r 0 _ P0 _ _ _ _ (isM_refl F n n P0) (predicts_first F O RT R LR n T P0 Q x e HS locs) E) as (yh & Hyh & ->).
    assert (Hb : forall t l, t < r -> l < p -> best F O R p y t (y t l) (yh t l)) by (intros t l Ht Hl; pose proof (Hyh t l Ht Hl) as X; rewrite Nat.add_0_r in X; exact X).
    split; [exists yh; exact Hb|]; intros yh' Hb'.
    replace (rsum r (fun t => log (det p (errors_cov yh' t)))) with (rsum r (fun t => log (det p (fun a b => cv (error F O R (y (t + 0) a) (yh t a)) (error F O R (y (t + 0) b) (yh t b)))))); [ring|].
    apply (rsum_ext F O); intros t Ht; f_equal; apply HD; intros a b Ha Hb2; unfold errors_cov; rewrite Nat.add_0_r.
    apply (best_unique F O RT R LR p y t); auto.
  Qed.
End Code.

(** The result does not read the data. *)
Section Blind.
  Variable F : Type.
  Variable O : rops F.
  Variable potrf potri : nat -> mat F -> option (mat F).
  Variable det : nat -> mat F -> F.
  Variable log : F -> F.

  (** Vectors of the same length, or the same array. *)
  Definition alike (a b : nd F) : Prop :=
    match a, b with V1 n _, V1 m _ => n = m | M2 r c _, M2 r' c' _ => r = r' /\ c = c' | S0 _, S0 _ => True | _, _ => False end.
  Definition res_alike (a b : res (nd F)) : Prop :=
    match a, b with Ok a, Ok b => alike a b | Err e, Err e' => e = e' | _, _ => False end.
  Lemma alike_refl a : alike a a. Proof. destruct a; cbn; auto. Qed.
  Lemma alike_elementwise h a b a' b' : alike a a' -> alike b b' -> res_alike (elementwise F h a b) (elementwise F h a' b').
  Proof.
    destruct a, a'; cbn; try contradiction; destruct b, b'; cbn; try contradiction; intros H K; subst; cbn; auto;
    repeat match goal with H : _ /\ _ |- _ => destruct H; subst end; cbn; auto;
    repeat match goal with |- context [match axis ?a ?b with _ => _ end] => destruct (axis a b) end; cbn; auto.
  Qed.
  Lemma alike_matmul a b a' b' : alike a a' -> alike b b' -> res_alike (nmatmul F O a b) (nmatmul F O a' b').
  Proof.
    destruct a, a'; cbn; try contradiction; destruct b, b'; cbn; try contradiction; intros H K;
    repeat match goal with H : _ /\ _ |- _ => destruct H end; subst; cbn; auto;
    match goal with |- context [if ?b then _ else _] => destruct b end; cbn; auto.
  Qed.
  Lemma alike_dot a b a' b' : alike a a' -> alike b b' -> res_alike (ndot F O a b) (ndot F O a' b').
  Proof.
    intros H K; destruct a, a'; try contradiction; destruct b, b'; try contradiction; unfold ndot;
    first [apply alike_matmul; assumption|apply alike_elementwise; assumption].
  Qed.
  Lemma alike_take idx a a' : alike a a' -> res_alike (take F idx a) (take F idx a').
  Proof.
    destruct a, a'; cbn; try contradiction; intros H; repeat match goal with H : _ /\ _ |- _ => destruct H end; subst; auto;
    match goal with |- context [if ?b then _ else _] => destruct b end; cbn; auto.
  Qed.

  Definition step_alike (a b : res (nd F * nd F * nd F)) : Prop :=
    match a, b with
    | Ok (x, P, G), Ok (x', P', G') => alike x x' /\ P = P' /\ G = G'
    | Err e, Err e' => e = e'
    | _, _ => False
    end.
  Lemma step_blind T Q locs y y' x x' P : alike y y' -> alike x x' ->
    step_alike (kalman_step F O potrf potri T Q locs y x P) (kalman_step F O potrf potri T Q locs y' x' P).
  Proof.
    intros Hy Hx; unfold kalman_step.
    pose proof (alike_take locs x x' Hx) as A; destruct (take F locs x) as [xl|], (take F locs x') as [xl'|]; cbn in A; try contradiction; cbn [bind]; [|exact A].
    pose proof (alike_elementwise (rsub O) y xl y' xl' Hy A) as B; unfold nsub at 1 3.
    destruct (elementwise F (rsub O) y xl) as [v|], (elementwise F (rsub O) y' xl') as [v'|]; cbn in B; try contradiction; cbn [bind]; [|exact B].
    destruct (block F locs P) as [Ft|]; cbn [bind]; [|reflexivity].
    destruct (inverse F potrf potri Ft) as [Fi|]; cbn [bind]; [|reflexivity].
    destruct (take_cols F locs P) as [Pl|]; cbn [bind]; [|reflexivity].
    destruct (nmatmul F O Pl Fi) as [K|]; cbn [bind]; [|reflexivity].
    pose proof (alike_dot K v K v' (alike_refl K) B) as D; destruct (ndot F O K v) as [g|], (ndot F O K v') as [g'|]; cbn in D; try contradiction; cbn [bind]; [|exact D].
    pose proof (alike_elementwise (radd O) x g x' g' Hx D) as E; unfold nadd at 1 3.
    destruct (elementwise F (radd O) x g) as [xt|], (elementwise F (radd O) x' g') as [xt'|]; cbn in E; try contradiction; cbn [bind]; [|exact E].
    destruct (take F locs P) as [Pr|]; cbn [bind]; [|reflexivity].
    destruct (nmatmul F O K Pr) as [KP|]; cbn [bind]; [|reflexivity].
    destruct (nsub F O P KP) as [Ptt|]; cbn [bind]; [|reflexivity].
    pose proof (alike_dot T xt T xt' (alike_refl T) E) as G; destruct (ndot F O T xt) as [x2|], (ndot F O T xt') as [x2'|]; cbn in G; try contradiction; cbn [bind]; [|exact G].
    destruct (mm3 F O T Ptt (ntrans F T)) as [Z|]; cbn [bind]; [|reflexivity].
    destruct (nadd F O Z Q) as [P'|]; cbn [bind]; [|reflexivity].
    cbn; auto.
  Qed.
  Lemma loop_blind r c f g T Q locs k : forall i x x' P llk, alike x x' ->
    kalman_loop F O potrf potri det log (M2 r c f) T Q locs i k x P llk = kalman_loop F O potrf potri det log (M2 r c g) T Q locs i k x' P llk.
  Proof.
    induction k as [|k IH]; intros i x x' P llk Hx; cbn [kalman_loop data_row]; [reflexivity|].
    destruct (i <? r); cbn [bind]; [|reflexivity].
    pose proof (step_blind T Q locs (V1 c (f i)) (V1 c (g i)) x x' P eq_refl Hx) as S.
    destruct (kalman_step F O potrf potri T Q locs (V1 c (f i)) x P) as [[[a b] d]|], (kalman_step F O potrf potri T Q locs (V1 c (g i)) x' P) as [[[a' b'] d']|];
      cbn in S; try contradiction; cbn [bind fst snd]; [|rewrite S; reflexivity].
    destruct S as (S & <- & <-); apply IH, S.
  Qed.
  Lemma simple_blind r c f g x0 P0 T Q locs :
    simple_kalman F O potrf potri det log (M2 r c f) x0 P0 T Q locs = simple_kalman F O potrf potri det log (M2 r c g) x0 P0 T Q locs.
  Proof. cbn [simple_kalman]; apply loop_blind, alike_refl. Qed.
End Blind.

(** The columns of a frame. *)
Section Columns.
  Variable F : Type.
  Lemma names_observed obs ls : forallb (observed obs) (map Name ls) = true <-> forall x, In x ls -> In x obs.
  Proof.
    rewrite forallb_forall; split.
    - intros H x Hx; pose proof (H (Name x) (in_map Name ls x Hx)) as E; apply existsb_exists in E as (z & Hz & E); apply String.eqb_eq in E; subst; exact Hz.
    - intros H l Hl; apply in_map_iff in Hl as (x & <- & Hx); apply existsb_exists; exists x; split; [apply H, Hx|apply String.eqb_refl].
  Qed.
  Lemma labels_located obs ls : NoDup obs -> (forall x, In x ls -> In x obs) ->
    exists idx, mapM (label_loc obs) (map Name ls) = Ok idx /\ List.length idx = List.length ls /\
      forall j, j < List.length ls -> nth j idx 0 < List.length obs /\ carries ls obs j (nth j idx 0).
  Proof.
    intros Hn; induction ls as [|x ls IH]; intros H; [exists []; split; [reflexivity|split; [reflexivity|intros j Hj; inversion Hj]]|].
    destruct IH as (idx & E & L & K); [intros z Hz; apply H; right; exact Hz|].
    destruct (loc1_ok obs x Hn (H x (or_introl eq_refl))) as (i & Ei & Ni).
    exists (i :: idx); cbn [map mapM label_loc]; rewrite Ei; cbn [bind]; rewrite E; cbn [bind]; split; [reflexivity|]; split; [cbn; lia|].
    intros [|j] Hj; cbn [nth].
    - split; [apply nth_error_Some; rewrite Ni; discriminate|]; exists x; split; [reflexivity|exact Ni].
    - destruct (K j ltac:(cbn in Hj; lia)) as (A & z & B & C); split; [exact A|]; exists z; split; assumption.
  Qed.
  Lemma carries_fun (obs ls : list string) i j j' : NoDup obs -> carries ls obs i j -> carries ls obs i j' -> j = j'.
  Proof.
    intros Hn (x & A & B) (x' & A' & B'); rewrite A in A'; injection A' as <-.
    apply (proj1 (NoDup_nth_error obs) Hn); [apply nth_error_Some; rewrite B; discriminate|rewrite B, B'; reflexivity].
  Qed.
  (** Column [j] of what is kept is the column at the position, among the observed
      variables, of the [j]-th label. *)
  Lemma frame_kept obs ls r (f : mat F) : NoDup obs -> List.length ls = List.length obs -> (forall x, In x ls -> In x obs) ->
    exists kept, filter_data F obs (Frame (map Name ls) r f) = Ok (M2 r (List.length obs) kept) /\
      forall t i j, carries ls obs j i -> kept t j = f t i.
  Proof.
    intros Hn L H; unfold filter_data, preprocess; rewrite map_length, L.
    destruct ls as [|x ls]; cbn [map].
    - destruct obs; [|discriminate]; cbn; eexists; split; [reflexivity|]; intros t i j (x & A & B); destruct j; discriminate.
    - replace (List.length (Name x :: map Name ls)) with (List.length obs) by (cbn in *; rewrite map_length; lia); rewrite Nat.eqb_refl; cbn [negb].
      change (Name x :: map Name ls) with (map Name (x :: ls)).
      rewrite (proj2 (names_observed obs (x :: ls)) H); cbn [negb].
      destruct (labels_located obs (x :: ls) Hn H) as (idx & -> & Li & K); cbn [bind take_cols].
      replace (forallb (fun i => i <? List.length obs) idx) with true.
      + eexists; split; [rewrite Li, L; reflexivity|]; intros t i j C; cbn beta.
        destruct (K j) as (_ & C'); [destruct C as (z & A & _); apply nth_error_Some; rewrite A; discriminate|].
        rewrite (carries_fun obs (x :: ls) j i (nth j idx 0) Hn C C'); reflexivity.
      + symmetry; apply forallb_forall; intros i Hi; apply Nat.ltb_lt; apply (In_nth idx i 0) in Hi as (j & Hj & <-); apply K; rewrite Li in Hj; exact Hj.
  Qed.
End Columns.
