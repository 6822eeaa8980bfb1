(** Derivatives and accuracy over the real numbers: properties C76, C78 and C79 in terms of the
    standard library. *)
From Verif Require Import Base Syntax Eval EvalSpec FactorySpec Factory Indexing IndexingSpec DynFunc DynSpec DynProofs DynProofs2 Nd Mat NdProofs SimSpec OrderProofs PropDyn
  CalcSpec CalcProofs CalcProofs2 CalcProofs3 Linearize LinearizeSpec LinearizeProofs FirstOrder FirstOrderSpec PropFirst Sylvester SylvesterSpec SecondOrder SecondOrderSpec PropSecond PropLinear
  AccuracySpec PropAccuracy PipelineSpec RealSpec RealProofs.
From Coq Require Import ZArith Reals Lra.
Local Open Scope string_scope.
Local Open Scope list_scope.
Local Open Scope nat_scope.

(** The operators and functions of the language, over the real numbers, are what the theorems
    about derivatives ask for; the error function is left out. *)
Theorem C76_real_numbers : is_field RO Rinv /\ is_ordered RO Rle /\ interprets R RO Rle real_ops real_fns real_pows.
Proof. split; [exact R_field|]; split; [exact R_ordered|exact real_interprets]. Qed.
Print Assumptions C76_real_numbers.

(** Partial derivatives are those of the standard library. *)
Theorem C76_meaning : forall (Q : list R -> R -> Prop) (x : list R),
  (forall j l, partial R RO Rle Q x j l <-> real_partial Q x j l) /\
  (forall c d l, partial2 R RO Rle Q x c d l <-> real_partial2 Q x c d l).
Proof. intros Q x; split; intros; [apply partial_real|apply partial2_real]. Qed.
Print Assumptions C76_meaning.

(** Full statement: as for C76_partial.  For every model over the real numbers, with the
    functions of the language, the Jacobian and the Hessian hold the partial derivatives of the
    equations.  Proved for [readable] models. *)
Theorem C76_reals_partial :
  forall (grad : (list R -> res R) -> list R -> res (list R)) (jacobian : (list R -> res (list R)) -> list R -> res (list (list R)))
    (endog stoch : list string) (exprs : list (ast R)) (params : list (string * R)) (ss : list R),
  readable endog stoch exprs params -> List.length ss = List.length endog -> smooth_at R RO endog stoch exprs params real_fns real_pows ss ->
  (forall l, signature R endog exprs l -> differentiates R RO Rle real_ops endog stoch exprs params grad jacobian l) ->
  exists m l J H, build R endog stoch exprs params = Ok m /\ signature R endog exprs l /\
    let w := List.length l + List.length stoch in
    model_jacobian R real_ops 0%R grad m ss = Ok (M2 (List.length exprs) w J) /\
    model_hessian R real_ops 0%R grad jacobian m ss = Ok (hessian (List.length exprs) w H) /\
    forall i e, nth_error exprs i = Some e ->
      (forall c, c < w -> real_partial (residual R real_ops endog stoch params l e) (rest_point R RO stoch l ss) c (J i c)) /\
      (forall c d, c < w -> d < w -> real_partial2 (residual R real_ops endog stoch params l e) (rest_point R RO stoch l ss) c d (H i c d) /\ H i c d = H i d c).
Proof.
  intros grad jacobian endog stoch exprs params ss Rd Ls Sm Hd.
  destruct (C76_partial R RO Rinv Rle real_ops real_fns real_pows grad jacobian endog stoch exprs params ss R_field R_ordered real_interprets Rd Ls Sm Hd) as (m & l & J & H & E1 & E2 & E3 & E4 & G).
  exists m, l, J, H; split; [exact E1|]; split; [exact E2|]; cbn zeta; split; [exact E3|]; split; [exact E4|].
  intros i e He; destruct (G i e He) as [G1 G2]; split.
  - intros c Hc; apply partial_real, G1, Hc.
  - intros c d Hc Hd'; destruct (G2 c d Hc Hd') as [G3 G4]; split; [apply partial2_real, G3|exact G4].
Qed.
Print Assumptions C76_reals_partial.

(** What is small of first (second) order, divided by [t] ([t^2]) goes to zero. *)
Lemma small1_real r : small1 R RO Rle r <-> r 0%R = 0%R /\ goes_to_zero (fun t => (r t / t)%R).
Proof.
  split.
  - intros (s & Vs & N); apply near_around in N; cbn in N; split; [rewrite (around_zero _ N); ring|].
    apply goes_to_zero_iff; exists (fun t => (if Req_EM_T t 0 then 0 else r t / t)%R); split; [|intros t Nt; destruct (Req_EM_T t 0); [contradiction|reflexivity]].
    apply vanishes_iff; intros e He; rewrite vanishes_iff in Vs; destruct (around_and _ _ N (Vs e He)) as (d & Hd); exists d; intros t Ht; destruct (Hd t Ht) as [E B].
    destruct (Req_EM_T t 0); [rewrite Rabs_R0; lra|]; rewrite E; replace (s t * t / t)%R with (s t) by (field; assumption); exact B.
  - intros [E0 H]; apply goes_to_zero_iff in H as (s & Vs & E); exists s; split; [exact Vs|]; apply near_around; exists (mkposreal 1 Rlt_0_1); intros t _; cbn.
    destruct (Req_dec t 0) as [->|Nt]; [rewrite E0; ring|]; rewrite <- (E t Nt); field; exact Nt.
Qed.
Lemma small2_real r : small2 R RO Rle r <-> r 0%R = 0%R /\ goes_to_zero (fun t => (r t / (t * t))%R).
Proof.
  split.
  - intros (s & Vs & N); apply near_around in N; cbn in N; split; [rewrite (around_zero _ N); ring|].
    apply goes_to_zero_iff; exists (fun t => (if Req_EM_T t 0 then 0 else r t / (t * t))%R); split; [|intros t Nt; destruct (Req_EM_T t 0); [contradiction|reflexivity]].
    apply vanishes_iff; intros e He; rewrite vanishes_iff in Vs; destruct (around_and _ _ N (Vs e He)) as (d & Hd); exists d; intros t Ht; destruct (Hd t Ht) as [E B].
    destruct (Req_EM_T t 0); [rewrite Rabs_R0; lra|]; rewrite E; replace (s t * (t * t) / (t * t))%R with (s t) by (field; assumption); exact B.
  - intros [E0 H]; apply goes_to_zero_iff in H as (s & Vs & E); exists s; split; [exact Vs|]; apply near_around; exists (mkposreal 1 Rlt_0_1); intros t _; cbn.
    destruct (Req_dec t 0) as [->|Nt]; [rewrite E0; ring|]; rewrite <- (E t Nt); field; exact Nt.
Qed.

(** The expected value of an equation goes to zero faster than [t] (than [t^2]). *)
Definition negligible (k : nat) (endog stoch : list string) (params : list (string * R)) (n : nat) (p : nat -> R)
    (ss : list R) (lag now : R -> nat -> R) (next : nat -> R -> nat -> R) (u : R -> nat -> R) (e : ast R) : Prop :=
  exists r : nat -> R -> R,
    (forall s, s < n -> around (fun t => equation_value R real_ops endog stoch params
       (level R RO ss (lag t)) (level R RO ss (now t)) (level R RO ss (next s t)) (u t) e (r s t))) /\
    let E t := SimSpec.Sum R RO n (fun s => (p s * r s t)%R) in
    E 0%R = 0%R /\ goes_to_zero (fun t => (E t / t ^ k)%R).
Lemma goes_to_zero_ext r r' : (forall t, r t = r' t) -> goes_to_zero r -> goes_to_zero r'.
Proof. intros E H; apply goes_to_zero_iff in H as (s & Vs & Hs); apply goes_to_zero_iff; exists s; split; [exact Vs|]; intros t Nt; rewrite <- E; apply Hs, Nt. Qed.
Theorem C78_meaning : forall endog stoch params n p ss lag now next u e,
  (expected_small R RO Rle real_ops endog stoch params (small1 R RO Rle) n p ss lag now next u e <-> negligible 1 endog stoch params n p ss lag now next u e) /\
  (expected_small R RO Rle real_ops endog stoch params (small2 R RO Rle) n p ss lag now next u e <-> negligible 2 endog stoch params n p ss lag now next u e).
Proof.
  intros endog stoch params n p ss lag now next u e; split; split; intros (r & H1 & H2); exists r; (split; [intros s Hs; apply near_around, H1, Hs|]).
  - apply small1_real in H2 as [E G]; split; [exact E|]; revert G; apply goes_to_zero_ext; intros t; rewrite pow_1; reflexivity.
  - apply small1_real; destruct H2 as [E G]; split; [exact E|]; revert G; apply goes_to_zero_ext; intros t; rewrite pow_1; reflexivity.
  - apply small2_real in H2 as [E G]; split; [exact E|]; revert G; apply goes_to_zero_ext; intros t; cbn [pow]; rewrite Rmult_1_r; reflexivity.
  - apply small2_real; destruct H2 as [E G]; split; [exact E|]; revert G; apply goes_to_zero_ext; intros t; cbn [pow]; rewrite Rmult_1_r; reflexivity.
Qed.
Print Assumptions C78_meaning.

(** Full statement: as for C78_partial and C79_partial, over the real numbers.  The hypotheses
    are those of C79_partial; C79_nonvacuous (PropAccuracy.v) computes a case of them with
    rational numbers, and C76_reals_nonvacuous below one of those about derivatives here. *)
Theorem C78_reals_partial :
  forall (ltb : R -> R -> bool)
    (grad : (list R -> res R) -> list R -> res (list R)) (jacobian : (list R -> res (list R)) -> list R -> res (list (list R)))
    (qr : nat -> nat -> mat R -> res (mat R * mat R)) (rank : nat -> nat -> mat R -> nat) (ordqz : nat -> mat R -> mat R -> res (schur R))
    (inv : nat -> mat R -> res (mat R)) (solve : nat -> nat -> mat R -> mat R -> res (mat R))
    (endog stoch : list string) (exprs : list (ast R)) (params : list (string * R)) (ss : list R) (m : repr R) (A : nd R) (s : state R) (gy gu : nd R),
  (forall x y, ltb x y = false <-> (y <= x)%R) ->
  qr_routine R RO qr -> schur_routine R RO Rle ordqz -> inverse_routine R RO inv -> linear_routine R RO solve ->
  readable endog stoch exprs params -> List.length exprs = List.length endog ->
  (forall l, signature R endog exprs l -> differentiates R RO Rle real_ops endog stoch exprs params grad jacobian l) ->
  List.length ss = List.length endog -> smooth_at R RO endog stoch exprs params real_fns real_pows ss ->
  Forall (fun e => steady_residual R RO real_ops endog stoch params e ss 0%R) exprs ->
  build R endog stoch exprs params = Ok m -> model_jacobian R real_ops 0%R grad m ss = Ok A ->
  state_space R RO ltb qr rank ordqz (r_index R m) A = Ok s ->
  (exists e, In e (eigen s) /\ beyond_one R RO Rle e) \/ not_complex R RO (last (eigen s) Nan) ->
  solve_first_order R RO inv solve (r_index R m) s = Ok (gy, gu) ->
  exists L g, offsets_of endog exprs L /\ about R L g /\ proper g /\ rk g = List.length stoch /\
    gy = squeeze R (M2 (rn g) (rs g) (ry g)) /\ gu = squeeze R (M2 (rn g) (rk g) (ru g)) /\
    forall (n : nat) (p : nat -> R) (e : nat -> nat -> R) (x u : nat -> R) (now : R -> nat -> R) (next : nat -> R -> nat -> R),
      centred R RO (List.length stoch) n p e ->
      let lag t v := (t * x v)%R in
      let shock t l := (t * u l)%R in
      (forall t, decides R RO g (lag t) (shock t) (now t)) ->
      (forall q t, q < n -> decides R RO g (now t) (fun l => (t * e q l)%R) (next q t)) ->
      Forall (negligible 1 endog stoch params n p ss lag now next shock) exprs.
Proof.
  intros ltb grad jacobian qr rank ordqz inv solve endog stoch exprs params ss m A s gy gu Hl Hqr Hqz Hinv Hs Rd Lx Hd Ls Sm SS Em EA Es Hx Eg.
  destruct (C78_partial R RO Rinv Rle ltb real_ops real_fns real_pows grad jacobian qr rank ordqz inv solve endog stoch exprs params ss m A s gy gu
    R_field R_ordered Hl real_interprets Hqr Hqz Hinv Hs Rd Lx Hd Ls Sm SS Em EA Es Hx Eg) as (L & g & G1 & G2 & G3 & G4 & G5 & G6 & G).
  exists L, g; do 6 (split; [assumption|]); intros n p e x u now next Hc lag shock H1 H2.
  pose proof (G n p e x u now next Hc H1 H2) as Q; revert Q; apply Forall_impl; intros a; apply C78_meaning.
Qed.
Print Assumptions C78_reals_partial.
Theorem C79_reals_partial :
  forall (ltb eqb : R -> R -> bool)
    (grad : (list R -> res R) -> list R -> res (list R)) (jacobian : (list R -> res (list R)) -> list R -> res (list (list R)))
    (qr : nat -> nat -> mat R -> res (mat R * mat R)) (rank : nat -> nat -> mat R -> nat) (ordqz : nat -> mat R -> mat R -> res (schur R))
    (inv : nat -> mat R -> res (mat R)) (qz : nat -> mat R -> mat R -> res (mat R * mat R * mat R * mat R))
    (solve : nat -> nat -> mat R -> mat R -> res (mat R)) (nan : R)
    (endog stoch : list string) (exprs : list (ast R)) (params : list (string * R)) (ss : list R) (m : repr R) (A B : nd R) (V : mat R) (s : state R) (gy gu xx xu uu dl : nd R),
  (forall x y, ltb x y = false <-> (y <= x)%R) -> (forall x y, eqb x y = true <-> x = y) ->
  qr_routine R RO qr -> schur_routine R RO Rle ordqz -> inverse_routine R RO inv ->
  real_schur_routine R RO qz -> linear_routine R RO solve -> fails_when_singular R RO solve -> refuses_singular R RO solve ->
  readable endog stoch exprs params -> List.length exprs = List.length endog ->
  (forall l, signature R endog exprs l -> differentiates R RO Rle real_ops endog stoch exprs params grad jacobian l) ->
  List.length ss = List.length endog -> smooth_at R RO endog stoch exprs params real_fns real_pows ss ->
  Forall (fun e => steady_residual R RO real_ops endog stoch params e ss 0%R) exprs ->
  build R endog stoch exprs params = Ok m -> model_jacobian R real_ops 0%R grad m ss = Ok A -> model_hessian R real_ops 0%R grad jacobian m ss = Ok B ->
  (forall l l', l < List.length stoch -> l' < List.length stoch -> V l l' = V l' l) ->
  state_space R RO ltb qr rank ordqz (r_index R m) A = Ok s ->
  (exists e, In e (eigen s) /\ beyond_one R RO Rle e) \/ not_complex R RO (last (eigen s) Nan) ->
  solve_first_order R RO inv solve (r_index R m) s = Ok (gy, gu) ->
  solve_second_order R RO eqb qz solve nan (r_index R m) gy gu A B (M2 (List.length stoch) (List.length stoch) V) = Ok (xx, xu, uu, dl) ->
  exists L g, offsets_of endog exprs L /\ about R L g /\ proper g /\ rk g = List.length stoch /\
    gy = squeeze R (M2 (rn g) (rs g) (ry g)) /\ gu = squeeze R (M2 (rn g) (rk g) (ru g)) /\
    sized R xx (rn g) (rs g * rs g) /\ sized R xu (rn g) (rs g * rk g) /\ sized R uu (rn g) (rk g * rk g) /\ sized R dl (rn g) 1 /\
    forall (n : nat) (p : nat -> R) (e : nat -> nat -> R) (x u : nat -> R) (now : R -> nat -> R) (next : nat -> R -> nat -> R),
      centred R RO (List.length stoch) n p e -> covariance R RO (List.length stoch) n p e V ->
      let lag t v := (t * x v)%R in
      let shock t l := (t * u l)%R in
      (forall t, moves R RO g xx xu uu dl (lag t) (shock t) (t * t)%R (now t)) ->
      (forall q t, q < n -> moves R RO g xx xu uu dl (now t) (fun l => (t * e q l)%R) (t * t)%R (next q t)) ->
      Forall (negligible 2 endog stoch params n p ss lag now next shock) exprs.
Proof.
  intros ltb eqb grad jacobian qr rank ordqz inv qz solve nan endog stoch exprs params ss m A B V s gy gu xx xu uu dl Hl Heq Hqr Hqz Hinv Hrs Hs He Hu Rd Lx Hd Ls Sm SS Em EA EB Vs Es Hx Eg E2.
  destruct (C79_partial R RO Rinv Rle ltb eqb real_ops real_fns real_pows grad jacobian qr rank ordqz inv qz solve nan endog stoch exprs params ss m A B V s gy gu xx xu uu dl
    R_field R_ordered Hl Heq real_interprets Hqr Hqz Hinv Hrs Hs He Hu Rd Lx Hd Ls Sm SS Em EA EB Vs Es Hx Eg E2) as (L & g & G1 & G2 & G3 & G4 & G5 & G6 & G7 & G8 & G9 & G10 & G).
  exists L, g; do 10 (split; [assumption|]); intros n p e x u now next Hc Hv lag shock H1 H2.
  pose proof (G n p e x u now next Hc Hv H1 H2) as Q; revert Q; apply Forall_impl; intros a; apply C78_meaning.
Qed.
Print Assumptions C79_reals_partial.

(** ** A concrete model: x = exp (rho log x(-1) + e), with rho = 1/2 *)
Local Open Scope R_scope.
Definition rho : R := / 2.
Definition g_eq : ast R := Bin BSub (Var "x") (Fun "exp" (Bin BAdd (Bin BMul (Var "rho") (Fun "log" (PVar "x" (-1)))) (Var "e"))).
Definition g_params : list (string * R) := [("rho", rho)].
Definition g_sig : list (nat * Z) := [(0%nat, (-1)%Z); (0%nat, 0%Z)].
Lemma g_readable : readable ["x"] ["e"] [g_eq] g_params.
Proof.
  split; [repeat constructor; cbn; intuition discriminate|].
  split; [intros x y Hx Hy; cbn [names app keys map fst In g_params] in Hx, Hy; repeat (destruct Hx as [<-|Hx]); try contradiction; repeat (destruct Hy as [<-|Hy]); try contradiction; split; discriminate|].
  split; [|split].
  - split.
    + intros x Hx; exists 0%Z; cbn [In] in Hx; destruct Hx as [<-|[]]; exists g_eq; split; [left; reflexivity|apply P_binl; constructor].
    + intros x k e Hx He Hp; cbn [In] in He; destruct He as [<-|[]]; unfold g_eq in Hp; invert_tree; lia.
  - repeat (apply Forall_cons || apply Forall_nil).
    split; [split; [exact I|split; [cbn; tauto|cbn [functions g_eq]; repeat apply conj; try exact I; try (cbn; tauto)]]|].
    split; [split; intros|split; intros x k H]; unfold g_eq in *; invert_tree; try (cbn; tauto); auto.
  - intros x [<-|[]]; reflexivity.
Qed.
Lemma g_signature l : signature R ["x"] [g_eq] l -> l = g_sig.
Proof.
  intros H; apply (signature_unique R ["x"] [g_eq] l g_sig H); split.
  - intros i k; split.
    + intros [E|[E|[]]]; injection E as <- <-; exists "x", g_eq; (split; [reflexivity|]); (split; [left; reflexivity|]); [apply P_binr, P_fun, P_binl, P_binr, P_fun|apply P_binl]; constructor.
    + intros (x & e & Hi & He & Ha); cbn [In] in He; destruct He as [<-|[]]; unfold g_eq in Ha; invert_tree; destruct i as [|[|i]]; try discriminate Hi; cbn; tauto.
  - intros p q a b Hpq Ha Hb; destruct p as [|[|p]], q as [|[|q]]; try lia; try (destruct q; discriminate Hb); try (destruct p; discriminate Ha); injection Ha as <-; injection Hb as <-; left; cbn; lia.
Qed.

(** Its residual at x(-1) = a, x = b, e = u. *)
Definition growth (a u : R) : R := exp (rho * ln a + u).
Section Residual.
  Variables a b u : R.
  Notation val := (EvalSpec.value R real_ops (plain R ["x"] ["e"] g_params g_sig [a; b] [u]) (at_time R ["x"] g_sig [a; b])).
  Lemma val_x v : val (Var "x") v <-> v = b.
  Proof.
    split; [|intros ->; constructor; left; exists 0%nat, 1%nat; repeat split; reflexivity].
    intros H; inversion H as [|? ? H0| | | | |]; subst; unfold plain in H0; cbn in H0; destruct H0 as [(i & j & A1 & A2 & A3)|(s & A1 & _)].
    - destruct i as [|[|]]; try discriminate A1; destruct j as [|[|[|]]]; try discriminate A2; injection A3 as <-; reflexivity.
    - destruct s as [|[|]]; discriminate A1.
  Qed.
  Lemma val_e v : val (Var "e") v <-> v = u.
  Proof.
    split; [|intros ->; constructor; right; exists 0%nat; repeat split; reflexivity].
    intros H; inversion H as [|? ? H0| | | | |]; subst; unfold plain in H0; cbn in H0; destruct H0 as [(i & j & A1 & _)|(s & A1 & A2)].
    - destruct i as [|[|]]; discriminate A1.
    - destruct s as [|[|]]; try discriminate A1; injection A2 as <-; reflexivity.
  Qed.
  Lemma val_rho v : val (Var "rho") v <-> v = rho.
  Proof. split; [intros H; inversion H as [|? ? H0| | | | |]; subst; exact H0|intros ->; constructor; reflexivity]. Qed.
  Lemma val_lag v : val (PVar "x" (-1)) v <-> v = a.
  Proof.
    split; [|intros ->; constructor; exists 0%nat, 0%nat; repeat split; reflexivity].
    intros H; inversion H as [| |? ? ? H0| | | |]; subst; destruct H0 as (i & j & A1 & A2 & A3).
    destruct i as [|[|]]; try discriminate A1; destruct j as [|[|[|]]]; try discriminate A2; injection A3 as <-; reflexivity.
  Qed.
  Lemma val_bin o l r w : val (Bin o l r) w <-> exists v v', val l v /\ val r v' /\ o_bin real_ops o v v' = Ok w.
  Proof. split; [intros H; inversion H; subst; eauto|intros (v & v' & H1 & H2 & H3); econstructor; eassumption]. Qed.
  Lemma val_fun f g e w : In (f, g) language_functions -> (forall g', In (f, g') language_functions -> g' = g) -> val (Fun f e) w <-> exists v, val e v /\ real_fun g v = Ok w.
  Proof.
    intros Hg Hu; split; [intros H; inversion H; subst|intros (v & H1 & H2); econstructor; eassumption].
    match goal with H : In (f, ?g') language_functions |- _ => apply Hu in H; subst g' end; eauto.
  Qed.
  Lemma g_residual v : residual R real_ops ["x"] ["e"] g_params g_sig g_eq [a; b; u] v <-> 0 < a /\ v = b - growth a u.
  Proof.
    change (residual R real_ops ["x"] ["e"] g_params g_sig g_eq [a; b; u] v) with (val g_eq v); unfold g_eq.
    assert (E1 : forall w, val (Fun "log" (PVar "x" (-1))) w <-> 0 < a /\ w = ln a).
    { intros w; rewrite (val_fun _ "log") by (cbn; intuition congruence); split.
      - intros (x & Hx & E); apply val_lag in Hx as ->; cbn in E; unfold is_pos in E; destruct (Rlt_dec 0 a); [|discriminate E]; injection E as <-; split; [assumption|reflexivity].
      - intros [H ->]; exists a; split; [apply val_lag; reflexivity|cbn; rewrite is_pos_true by exact H; reflexivity]. }
    rewrite val_bin; split.
    - intros (x & y & Hx & Hy & E); apply val_x in Hx as ->; apply (val_fun _ "exp") in Hy as (z & Hz & Ez); [|cbn; tauto|cbn; intuition congruence].
      apply val_bin in Hz as (p & q & Hp & Hq & Es); apply val_e in Hq as ->; apply val_bin in Hp as (c & d & Hc & Hd & Em); apply val_rho in Hc as ->; apply E1 in Hd as [Ha ->].
      cbn in E, Ez, Es, Em; injection Em as <-; injection Es as <-; injection Ez as <-; injection E as <-; split; [exact Ha|reflexivity].
    - intros [Ha ->]; exists b, (growth a u); split; [apply val_x; reflexivity|]; split; [|reflexivity].
      rewrite (val_fun _ "exp") by (cbn; intuition congruence); exists (rho * ln a + u); split; [|reflexivity].
      apply val_bin; exists (rho * ln a), u; split; [|split; [apply val_e; reflexivity|reflexivity]].
      apply val_bin; exists rho, (ln a); split; [apply val_rho; reflexivity|]; split; [apply E1; split; [exact Ha|reflexivity]|reflexivity].
  Qed.
End Residual.

(** Its derivatives. *)
Definition g_first (a u : R) : list R := [- (rho / a * growth a u); 1; - growth a u].
Definition g_second (a u : R) : list (list R) := [[rho * (1 - rho) / (a * a) * growth a u; 0; - (rho / a * growth a u)]; [0; 0; 0]; [- (rho / a * growth a u); 0; - growth a u]].
Definition g_grad (f : list R -> res R) (x : list R) : res (list R) :=
  match x with [a; b; u] => if is_pos a then Ok (g_first a u) else Err GenericErr | _ => Err GenericErr end.
Definition g_jacobian (g : list R -> res (list R)) (x : list R) : res (list (list R)) :=
  match x with [a; b; u] => if is_pos a then Ok (g_second a u) else Err GenericErr | _ => Err GenericErr end.
Lemma growth_first a u : 0 < a -> derivable_pt_lim (fun h => growth (a + h) u) 0 (rho / a * growth a u).
Proof.
  intros Ha; apply (shifted (fun x => growth x u)); unfold growth.
  replace (rho / a * exp (rho * ln a + u)) with (exp (rho * ln a + u) * (rho * / a + 0)) by (field; lra).
  apply (derivable_pt_lim_comp (fun x => rho * ln x + u) exp); [|apply derivable_pt_lim_exp].
  apply (derivable_pt_lim_plus (fun x => rho * ln x) (fun _ => u)); [apply (derivable_pt_lim_scal ln), derivable_pt_lim_ln, Ha|apply derivable_pt_lim_const].
Qed.
Lemma growth_second a u : derivable_pt_lim (fun h => growth a (u + h)) 0 (growth a u).
Proof.
  apply (shifted (fun x => growth a x)); unfold growth.
  cut (derivable_pt_lim (fun x => exp (rho * ln a + x)) u (exp (rho * ln a + u) * (0 + 1))); [rewrite Rplus_0_l, Rmult_1_r; exact (fun H => H)|].
  apply (derivable_pt_lim_comp (fun x => rho * ln a + x) exp); [|apply derivable_pt_lim_exp].
  apply (derivable_pt_lim_plus (fun _ => rho * ln a) (fun x => x)); [apply derivable_pt_lim_const|apply derivable_pt_lim_id].
Qed.
(** A quantity that is a function of the arguments has at most one partial derivative. *)
Lemma only_partial (Q : list R -> R -> Prop) (x : list R) (j : nat) (F : R -> R) (l l' : R) : (forall h v, Q (bump R RO x j h) v -> v = F h) -> derivable_pt_lim F 0 l' -> partial R RO Rle Q x j l -> l = l'.
Proof.
  intros HQ D H; apply partial_real in H as (f & A & D'); apply (uniqueness_limite F 0); [|exact D].
  apply (derive_from f); [|exact D']; revert A; apply around_mono; intros h Hh; rewrite Rplus_0_l; apply HQ, Hh.
Qed.
Lemma g_first_only (Q : list R -> R -> Prop) a b u j d :
  (forall a b u v, Q [a; b; u] v -> 0 < a /\ v = b - growth a u) -> partial R RO Rle Q [a; b; u] j d -> (j < 3)%nat -> 0 < a /\ nth_error (g_first a u) j = Some d.
Proof.
  intros Hr Hd Hj; assert (Ha : 0 < a).
  { pose proof Hd as Hd'; apply partial_real in Hd' as (F & A & _); apply around_zero in A; destruct j as [|[|[|j]]]; [| | |lia]; cbn [bump radd RO] in A; apply Hr in A; lra. }
  split; [exact Ha|]; destruct j as [|[|[|j]]]; [| | |lia]; cbn [nth_error g_first]; f_equal; symmetry; (eapply only_partial; [| |exact Hd]; [intros h v Hv; cbn [bump radd RO] in Hv; apply Hr in Hv as [_ ->]; reflexivity|]).
  - replace (- (rho / a * growth a u)) with (0 - rho / a * growth a u) by ring; apply (derivable_pt_lim_minus (fun _ => b) (fun h => growth (a + h) u)); [apply derivable_pt_lim_const|apply growth_first, Ha].
  - replace 1 with (0 + 1 - 0) by ring; apply (derivable_pt_lim_minus (fun h => b + h) (fun h => growth a u)); [|apply derivable_pt_lim_const].
    apply (derivable_pt_lim_plus (fun _ => b) (fun h => h)); [apply derivable_pt_lim_const|apply derivable_pt_lim_id].
  - replace (- growth a u) with (0 - growth a u) by ring; apply (derivable_pt_lim_minus (fun _ => b) (fun h => growth a (u + h))); [apply derivable_pt_lim_const|apply growth_second].
Qed.
Lemma g_second_only (Q : list R -> R -> Prop) a b u c j d :
  (forall a b u v, Q [a; b; u] v -> 0 < a /\ nth_error (g_first a u) c = Some v) -> partial R RO Rle Q [a; b; u] j d -> (c < 3)%nat -> (j < 3)%nat ->
  0 < a /\ nth_error (nth c (g_second a u) []) j = Some d.
Proof.
  intros Hr Hd Hc Hj; assert (Ha : 0 < a).
  { pose proof Hd as Hd'; apply partial_real in Hd' as (F & A & _); apply around_zero in A; destruct j as [|[|[|j]]]; [| | |lia]; cbn [bump radd RO] in A; apply Hr in A; lra. }
  split; [exact Ha|].
  assert (Inv : derivable_pt_lim (fun h => rho / (a + h)) 0 (- rho / (a * a))).
  { apply (shifted (fun x => rho / x)); replace (- rho / (a * a)) with (rho * - / (a * a)) by (field; lra); apply (derivable_pt_lim_scal Rinv), derive_inv; lra. }
  destruct c as [|[|[|c]]]; [| | |lia]; destruct j as [|[|[|j]]]; try lia; cbn [nth nth_error g_second]; f_equal; symmetry;
    (eapply only_partial; [| |exact Hd]; [intros h v Hv; cbn [bump radd RO] in Hv; apply Hr in Hv as [_ Hv]; cbn [nth_error g_first] in Hv; injection Hv as <-; reflexivity|]); try apply derivable_pt_lim_const.
  - replace (rho * (1 - rho) / (a * a) * growth a u) with (- (- rho / (a * a) * growth (a + 0) u + rho / (a + 0) * (rho / a * growth a u))) by (rewrite !Rplus_0_r; field; lra).
    apply (derivable_pt_lim_opp (fun h => rho / (a + h) * growth (a + h) u)), (derivable_pt_lim_mult (fun h => rho / (a + h)) (fun h => growth (a + h) u)); [exact Inv|apply growth_first, Ha].
  - apply (derivable_pt_lim_opp (fun h => rho / a * growth a (u + h))), (derivable_pt_lim_scal (fun h => growth a (u + h))), growth_second.
  - apply (derivable_pt_lim_opp (fun h => growth (a + h) u)), growth_first, Ha.
  - apply (derivable_pt_lim_opp (fun h => growth a (u + h))), growth_second.
Qed.
Lemma g_differentiates l : signature R ["x"] [g_eq] l -> differentiates R RO Rle real_ops ["x"] ["e"] [g_eq] g_params g_grad g_jacobian l.
Proof.
  intros Sg; apply g_signature in Sg as ->; intros e f [<-|[]] Hf; cbn [List.length g_sig Nat.add] in *; split.
  - assert (Hr : forall a b u v, f [a; b; u] = Ok v -> 0 < a /\ v = b - growth a u) by (intros a b u v E; apply g_residual, Hf, E; reflexivity).
    intros x Hx Hp; destruct x as [|a [|b [|u [|? ?]]]]; try discriminate Hx.
    destruct (Hp 0%nat ltac:(lia)) as (d & Hd); pose proof (proj1 (g_first_only (fun y v => f y = Ok v) _ _ _ _ _ Hr Hd ltac:(lia))) as Ha.
    exists (g_first a u); cbn [g_grad]; rewrite is_pos_true by exact Ha; split; [reflexivity|]; split; [reflexivity|].
    intros j d' Hj Hd'; exact (proj2 (g_first_only (fun y v => f y = Ok v) _ _ _ _ _ Hr Hd' Hj)).
  - intros x Hx entry Hp; destruct x as [|a [|b [|u [|? ?]]]]; try discriminate Hx.
    assert (Hr : forall c y v w t, entry c [y; v; w] t -> 0 < y /\ nth_error (g_first y w) c = Some t).
    { intros c y v w t (r & E & Hw); cbn [g_grad] in E; unfold is_pos in E; destruct (Rlt_dec 0 y); [injection E as <-; split; assumption|discriminate E]. }
    destruct (Hp 0%nat 0%nat ltac:(lia) ltac:(lia)) as (d & Hd); pose proof (proj1 (g_second_only (entry 0%nat) _ _ _ _ _ _ (Hr 0%nat) Hd ltac:(lia) ltac:(lia))) as Ha.
    exists (g_second a u); cbn [g_jacobian]; rewrite is_pos_true by exact Ha; split; [reflexivity|]; split; [reflexivity|]; split; [repeat constructor|].
    intros c j d' Hc Hj Hd'; exists (nth c (g_second a u) []); split; [destruct c as [|[|[|c]]]; [| | |lia]; reflexivity|].
    exact (proj2 (g_second_only (entry c) _ _ _ _ _ _ (Hr c) Hd' Hc Hj)).
Qed.
Lemma g_smooth : smooth_at R RO ["x"] ["e"] [g_eq] g_params real_fns real_pows [1].
Proof.
  constructor; [|constructor]; exists (1 - exp (rho * ln 1 + 0)); unfold g_eq.
  apply (S_sub R RO); [constructor; left; exists 0%nat; split; reflexivity|].
  apply (S_fun R RO real_fns real_pows _ _ _ "exp" "exp"); [cbn; tauto| |exact I].
  apply (S_add R RO); [|constructor; right; split; [left; reflexivity|reflexivity]].
  apply (S_mul R RO); [constructor; reflexivity|].
  apply (S_fun R RO real_fns real_pows _ _ _ "log" "log"); [cbn; tauto| |exact Rlt_0_1].
  constructor; left; exists 0%nat; split; reflexivity.
Qed.
(** At the steady state 1 the derivatives in x(-1), x and e are -1/2, 1 and -1. *)
Example C76_reals_nonvacuous :
  readable ["x"] ["e"] [g_eq] g_params /\ smooth_at R RO ["x"] ["e"] [g_eq] g_params real_fns real_pows [1] /\
  (forall l, signature R ["x"] [g_eq] l -> differentiates R RO Rle real_ops ["x"] ["e"] [g_eq] g_params g_grad g_jacobian l) /\
  exists m J H, build R ["x"] ["e"] [g_eq] g_params = Ok m /\
    model_jacobian R real_ops 0 g_grad m [1] = Ok (M2 1 3 J) /\ J 0%nat 0%nat = - / 2 /\ J 0%nat 1%nat = 1 /\ J 0%nat 2%nat = -1 /\
    model_hessian R real_ops 0 g_grad g_jacobian m [1] = Ok (hessian 1 3 H) /\ H 0%nat 0%nat 0%nat = / 4 /\ H 0%nat 0%nat 2%nat = - / 2 /\ H 0%nat 2%nat 2%nat = -1.
Proof.
  split; [exact g_readable|]; split; [exact g_smooth|]; split; [exact g_differentiates|].
  destruct (C76_reals_partial g_grad g_jacobian ["x"] ["e"] [g_eq] g_params [1] g_readable eq_refl g_smooth g_differentiates) as (m & l & J & H & E1 & E2 & E3 & E4 & G).
  apply g_signature in E2; subst l; cbn [List.length g_sig Nat.add] in *; destruct (G 0%nat g_eq eq_refl) as [G1 G2].
  exists m, J, H; split; [exact E1|]; split; [exact E3|].
  assert (P1 : forall a b u c d, real_partial (residual R real_ops ["x"] ["e"] g_params g_sig g_eq) [a; b; u] c d -> (c < 3)%nat -> 0 < a /\ nth_error (g_first a u) c = Some d).
  { intros a b u c d Hd; apply (g_first_only (residual R real_ops ["x"] ["e"] g_params g_sig g_eq)) with (b := b); [intros ? ? ? ?; apply g_residual|apply partial_real, Hd]. }
  assert (P2 : forall c d v, real_partial2 (residual R real_ops ["x"] ["e"] g_params g_sig g_eq) [1; 1; 0] c d v -> (c < 3)%nat -> (d < 3)%nat -> nth_error (nth c (g_second 1 0) []) d = Some v).
  { intros c d v Hv Hc Hd; refine (proj2 (g_second_only _ 1 1 0 c d v _ _ Hc Hd)); [|apply partial_real, Hv]; intros a b u t Ht; apply (P1 a b u c t Ht Hc). }
  assert (One : growth 1 0 = 1) by (unfold growth; rewrite ln_1, Rmult_0_r, Rplus_0_r; apply exp_0).
  change (rest_point R RO ["e"] g_sig [1]) with [1; 1; 0] in *.
  assert (Q1 : forall c, (c < 3)%nat -> nth_error (g_first 1 0) c = Some (J 0%nat c)) by (intros c Hc; apply (P1 1 1 0 c _ (G1 c Hc) Hc)).
  assert (Q2 : forall c d, (c < 3)%nat -> (d < 3)%nat -> nth_error (nth c (g_second 1 0) []) d = Some (H 0%nat c d)) by (intros c d Hc Hd; apply P2; [apply G2| |]; assumption).
  pose proof (Q1 0%nat ltac:(lia)) as A0; pose proof (Q1 1%nat ltac:(lia)) as A1; pose proof (Q1 2%nat ltac:(lia)) as A2.
  pose proof (Q2 0%nat 0%nat ltac:(lia) ltac:(lia)) as B0; pose proof (Q2 0%nat 2%nat ltac:(lia) ltac:(lia)) as B1; pose proof (Q2 2%nat 2%nat ltac:(lia) ltac:(lia)) as B2.
  unfold g_first, g_second, rho in A0, A1, A2, B0, B1, B2; cbn [nth nth_error] in A0, A1, A2, B0, B1, B2; rewrite One in *.
  injection A0 as <-; injection A1 as <-; injection A2 as <-; injection B0 as <-; injection B1 as <-; injection B2 as <-.
  repeat split; try exact E4; field.
Qed.
