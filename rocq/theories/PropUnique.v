(** The solution of a model is the only bounded one: property C101. *)
From Verif Require Import Base Syntax Eval EvalSpec FactorySpec Factory Indexing IndexingSpec IndexingProofs IndexingProofs2 DynFunc DynSpec DynProofs DynProofs2 Nd Mat NdProofs SimSpec OrderProofs PropDyn
  CalcSpec CalcProofs CalcProofs2 CalcProofs3 Linearize LinearizeSpec LinearizeProofs FirstOrder FirstOrderSpec FirstOrderProofs FirstOrderProofs4 FirstOrderProofs5 FirstOrderCurrent PropFirst Sylvester SylvesterSpec PropSecond PropLinear
  AccuracySpec AccuracyProofs AccuracyProofs2 PropAccuracy NdInst FirstOrderExample Gauss SylvesterExample LinearExample StableSpec StableProofs StableProofs4 PropStable PathStable UniqueSpec UniqueProofs UniqueExample.
From Coq Require Import ZArith QArith Qcanon.
Local Open Scope string_scope.
Local Open Scope list_scope.
Local Open Scope nat_scope.

(** ** C101: the rule gives the only bounded solution of the equations *)

(** Full statement: for every model and every steady state where its equations are smooth, if
    the first-order solution is returned then it gives, after any deviations of last period and
    any shocks of the first period, a path that stays bounded and along which every equation
    holds to first order, and no other bounded path does.  Proved for [readable] models when
    the roots are separated: as many as there are variables with a lag lie inside the unit
    circle, and the others outside. *)
Theorem C101_partial :
  forall (F : Type) (O : rops F) (finv : F -> F) (le : F -> F -> Prop) (ltb : F -> F -> bool) (P : ops F) (fns : string -> smooth_fun F) (pows : F -> smooth_fun F)
    (grad : (list F -> res F) -> list F -> res (list F)) (jacobian : (list F -> res (list F)) -> list F -> res (list (list F)))
    (qr : nat -> nat -> mat F -> res (mat F * mat F)) (rank : nat -> nat -> mat F -> nat) (ordqz : nat -> mat F -> mat F -> res (schur F))
    (inv : nat -> mat F -> res (mat F)) (solve : nat -> nat -> mat F -> mat F -> res (mat F))
    (endog stoch : list string) (exprs : list (ast F)) (params : list (string * F)) (ss : list F) (m : repr F) (A : nd F) (s : state F) (gy gu : nd F),
  is_field O finv -> is_ordered O le -> (forall x y, ltb x y = false <-> le y x) -> archimedean F O le -> interprets F O le P fns pows ->
  qr_routine F O qr -> schur_routine F O le ordqz -> finite_quotients F O ordqz -> inverse_routine F O inv -> linear_routine F O solve -> refuses_singular F O solve ->
  readable endog stoch exprs params -> List.length exprs = List.length endog ->
  (forall l, signature F endog exprs l -> differentiates F O le P endog stoch exprs params grad jacobian l) ->
  List.length ss = List.length endog -> smooth_at F O endog stoch exprs params fns pows ss ->
  Forall (fun e => steady_residual F O P endog stoch params e ss (r0 O)) exprs ->
  build F endog stoch exprs params = Ok m -> model_jacobian F P (r0 O) grad m ss = Ok A ->
  state_space F O ltb qr rank ordqz (r_index F m) A = Ok s ->
  solve_first_order F O inv solve (r_index F m) s = Ok (gy, gu) ->
  exists L g, offsets_of endog exprs L /\ about F L g /\ proper g /\ rk g = List.length stoch /\
    gy = squeeze F (M2 (rn g) (rs g) (ry g)) /\ gu = squeeze F (M2 (rn g) (rk g) (ru g)) /\
    (separated F O le (eigen s) (List.length (members_of L (backward L))) ->
     (forall lag u, exists y, path_follows F O g lag u y /\
        path_holds F O le P endog stoch params exprs ss lag u y /\ bounded F O le (List.length endog) y /\
        forall y', path_holds F O le P endog stoch params exprs ss lag u y' -> bounded F O le (List.length endog) y' ->
          forall t v, v < List.length endog -> y' t v = y t v) /\
     (forall lag u y, path_follows F O g lag u y <->
        path_holds F O le P endog stoch params exprs ss lag u y /\ bounded F O le (List.length endog) y)).
Proof.
  intros F O finv le ltb P fns pows grad jacobian qr rank ordqz inv solve endog stoch exprs params ss m A s gy gu FT OR Hl AR HI Hqr Hqz Hfin Hinv Hs Hsing
    (Nd & Nc & R & W & Dj) Lx Hd Ls Sm SS Em EA Es Eg.
  destruct (expansion F O finv FT le OR P fns pows HI endog stoch exprs params Nd Nc R W Dj ss Ls Sm grad jacobian Hd)
    as (m' & lls & J & H & Em' & El & Ei & Sg & EJ & _ & _ & EX).
  rewrite Em in Em'; injection Em' as <-; rewrite EJ in EA; injection EA as <-.
  pose proof (Ne endog stoch Nd) as Ne.
  destruct (lls_offsets F endog exprs lls Ne R El) as (Of & Ir & Nk); pose proof (proj1 Of) as LL.
  rewrite Ei in Es, Eg; cbn zeta in EX; set (L := map snd lls) in *; rewrite Lx, <- LL in Es.
  pose proof (index_manager_array lls (List.length stoch) Nk Ir) as HX.
  destruct (returned_rule F O finv le ltb qr rank ordqz inv solve lls (List.length stoch) (array L (List.length stoch)) J s gy gu FT OR Hl Hqr Hqz Hinv Hs Nk Ir HX Es Eg)
    as (g & Ab & Pg & K & E1 & E2 & _).
  exists L, g; split; [exact Of|]; split; [exact Ab|]; split; [exact Pg|]; split; [exact K|]; split; [exact E1|]; split; [exact E2|].
  intros Sep.
  destruct (C98_partial F O finv le ltb qr rank ordqz inv solve lls (List.length stoch) (array L (List.length stoch)) J s gy gu FT OR Hl AR Hqr Hqz Hfin Hinv Hs Hsing Nk Ir HX Es Eg Sep)
    as (h & Ab' & Ph & K' & E1' & E2' & _ & G & _).
  assert (Hn : rn g = List.length L) by apply Ab.
  pose proof (eq_dec0 F O le OR ltb Hl) as dec.
  assert (PL : forall lag u y, path_holds F O le P endog stoch params exprs ss lag u y <-> path_solves F O L (List.length stoch) J lag u y).
  { intros lag u y; apply (path_linear F O finv FT le OR dec P endog stoch params L ss Nd exprs J H EX SS g Hn K); congruence. }
  assert (Fo : forall lag u y, path_follows F O g lag u y <-> path_follows F O h lag u y).
  { destruct Ab as (An & Ao & As & Ar), Ab' as (Bn & Bo & Bs & Br).
    assert (Ey : squeeze F (M2 (rn g) (rs g) (ry g)) = squeeze F (M2 (rn h) (rs h) (ry h))) by congruence.
    assert (Eu : squeeze F (M2 (rn g) (rk g) (ru g)) = squeeze F (M2 (rn h) (rk h) (ru h))) by congruence.
    assert (D1 : forall b u a, decides F O g b u a -> decides F O h b u a) by (intros b u a; apply decides_alike; congruence).
    assert (D2 : forall b u a, decides F O h b u a -> decides F O g b u a) by (intros b u a; apply decides_alike; congruence).
    intros lag u y; unfold path_follows; split; intros [X Y]; (split; [auto|intros t; auto]). }
  rewrite <- LL.
  assert (G' : forall lag u y, path_follows F O g lag u y <-> path_holds F O le P endog stoch params exprs ss lag u y /\ bounded F O le (List.length L) y)
    by (intros lag u y; rewrite Fo, PL; apply G).
  split; [|exact G'].
  intros lag u; destruct (walk_follows F O g Pg lag u) as [y Hy]; exists y; split; [exact Hy|]; pose proof (proj1 (G' lag u y) Hy) as [S1 S2]; split; [exact S1|]; split; [exact S2|].
  intros y' H1 H2 t v Hv; apply (follows_one F O g Pg lag u); [apply G'; split; assumption|exact Hy|rewrite Hn; exact Hv].
Qed.
Print Assumptions C101_partial.

(** ** A concrete model *)
Example C101_nonvacuous :
  is_field QO Qcinv /\ is_ordered QO Qcle /\ (forall x y, qlt x y = false <-> Qcle y x) /\ archimedean Qc QO Qcle /\
  interprets Qc QO Qcle q_ops no_function squares /\
  qr_routine Qc QO xyz_qr /\ schur_routine Qc QO Qcle xyz_qz /\ finite_quotients Qc QO xyz_qz /\ inverse_routine Qc QO xyz_inv /\
  linear_routine Qc QO qsolve /\ refuses_singular Qc QO qsolve /\
  readable lendog lstoch lmodel lparams /\ List.length lmodel = List.length lendog /\
  (forall l, signature Qc lendog lmodel l -> differentiates Qc QO Qcle q_ops lendog lstoch lmodel lparams qgrad qjacobian l) /\
  List.length lss = List.length lendog /\ smooth_at Qc QO lendog lstoch lmodel lparams no_function squares lss /\
  Forall (fun e => steady_residual Qc QO q_ops lendog lstoch lparams e lss (r0 QO)) lmodel /\
  exists m A s gy gu, build Qc lendog lstoch lmodel lparams = Ok m /\
    model_jacobian Qc q_ops (r0 QO) qgrad m lss = Ok A /\
    state_space Qc QO qlt xyz_qr rank_all xyz_qz (r_index Qc m) A = Ok s /\
    solve_first_order Qc QO xyz_inv qsolve (r_index Qc m) s = Ok (gy, gu) /\
    forall L, offsets_of lendog lmodel L -> separated Qc QO Qcle (eigen s) (List.length (members_of L (backward L))).
Proof.
  split; [exact Q_field|]; split; [exact Q_ordered|]; split; [exact qlt_le|]; split; [exact Q_archimedean|]; split; [exact q_interprets|].
  split; [apply qr_with_ok|]; split; [apply qz_with_ok|]; split; [apply quotients_ok; vm_compute; reflexivity|]; split; [apply inv_with_ok|].
  split; [exact qsolve_ok|]; split; [exact qsolve_refuses|].
  split; [exact lmodel_readable|]; split; [reflexivity|]; split; [exact lmodel_differentiates|]; split; [reflexivity|].
  split; [apply lmodel_smooth; reflexivity|]; split; [exact lmodel_steady|].
  assert (E : match build Qc lendog lstoch lmodel lparams with Ok m =>
    match model_jacobian Qc q_ops (r0 QO) qgrad m lss with Ok A =>
      match solution QO qlt xyz_qr rank_all xyz_qz xyz_inv qsolve (r_index Qc m) A with
      | Ok (s, (gy, gu)) => match eigen s with [Fin a b; Fin c d; Fin e f] => same a (q 1 2) && same b z0 && same c (q 3 4) && same d z0 && same e (q 2 1) && same f z0 | _ => false end
      | Err _ => false end | Err _ => false end | Err _ => false end = true) by (vm_compute; reflexivity).
  destruct (build Qc lendog lstoch lmodel lparams) as [m|]; [|discriminate E].
  destruct (model_jacobian _ _ _ _ m lss) as [A|] eqn:EA; [|discriminate E]; unfold solution in E.
  destruct (state_space _ _ _ _ _ _ (r_index Qc m) _) as [s|] eqn:Es; [|discriminate E]; cbn [bind] in E.
  destruct (solve_first_order _ _ _ _ (r_index Qc m) s) as [[gy gu]|] eqn:Eg; [|discriminate E]; cbn [bind] in E.
  destruct (eigen s) as [|[a b| |] [|[c d| |] [|[e f| |] [|? ?]]]] eqn:Ee; try discriminate E.
  repeat (apply andb_true_iff in E as [E ?]); repeat match goal with G : same _ _ = true |- _ => apply same_eq in G end; subst.
  exists m, A, s, gy, gu; split; [reflexivity|]; split; [exact EA|]; split; [exact Es|]; split; [exact Eg|]; rewrite Ee; intros L HL.
  replace (List.length (members_of L (backward L))) with 2.
  - split; [cbn; lia|]; split.
    + intros [|[|i]] Hi; try (cbn in Hi; lia); cbn [nth]; apply is_inside_ok; vm_compute; reflexivity.
    + intros [|[|[|i]]] Hi; try (cbn in Hi; lia); cbn; apply qlt_true; vm_compute; reflexivity.
  - assert (El : exists lls, set_lead_lags Qc lendog lmodel = Ok lls /\ List.length (members_of (map snd lls) (backward (map snd lls))) = 2) by (eexists; split; vm_compute; reflexivity).
    destruct El as (lls & El & N2); destruct lmodel_readable as (Nd & _ & R & _).
    destruct (lls_offsets Qc lendog lmodel lls (Ne lendog lstoch Nd) R El) as (Of & _).
    rewrite (same_backward Qc lendog lmodel L (map snd lls) HL Of); symmetry; exact N2.
Qed.

(** Along a path that solves the model that explodes, x grows. *)
Lemma dmodel_grows lag now next u : holds_to_first_order Qc QO Qcle q_ops dendog dstoch [] [z0; z0] lag now next u deq1 -> now 0 = (q (-2) 1 * lag 0%nat + u 0%nat)%Qc.
Proof.
  intros (r & Hr & s & Vs & Es).
  assert (V : forall t, equation_value Qc q_ops dendog dstoch [] (level Qc QO [z0; z0] (fun v => rmul QO t (lag v))) (level Qc QO [z0; z0] (fun v => rmul QO t (now v)))
    (level Qc QO [z0; z0] (fun v => rmul QO t (next v))) (fun l => rmul QO t (u l)) deq1 (z0 + t * now 0%nat - (q (-2) 1 * (z0 + t * lag 0%nat) + t * u 0%nat))%Qc).
  { intros t; unfold equation_value, deq1.
    apply (V_bin _ _ _ _ BSub) with (z0 + t * now 0%nat)%Qc (q (-2) 1 * (z0 + t * lag 0%nat) + t * u 0%nat)%Qc; [| |reflexivity].
    - constructor; cbn [lookup]; left; exists 0; split; reflexivity.
    - apply (V_bin _ _ _ _ BAdd) with (q (-2) 1 * (z0 + t * lag 0%nat))%Qc (t * u 0%nat)%Qc; [| |reflexivity].
      + apply (V_bin _ _ _ _ BMul) with (q (-2) 1) (z0 + t * lag 0%nat)%Qc; [constructor| |reflexivity].
        constructor; exists 0; split; reflexivity.
      + constructor; cbn [lookup]; right; exists 0; split; reflexivity. }
  assert (Nd : NoDup (dendog ++ dstoch)) by apply dmodel_readable.
  enough (E : 0%Qc = (now 0%nat - (q (-2) 1 * lag 0%nat + u 0%nat))%Qc) by (transitivity (now 0%nat - (q (-2) 1 * lag 0%nat + u 0%nat) + (q (-2) 1 * lag 0%nat + u 0%nat))%Qc; [ring|rewrite <- E; ring]).
  apply (slope_is 0%Qc 0%Qc 0%Qc _ s 0%Qc Vs).
  pose proof (near_and Qc QO Qcinv Q_field Qcle Q_ordered _ _ Hr Es) as N; revert N; apply near_mono; intros t [A B].
  rewrite B in A; apply (equation_value_unique Qc q_ops dendog dstoch [] Nd _ _ _ _ _ _ _ A) in V as E.
  change (rmul QO (s t) t) with (s t * t)%Qc in E; transitivity (s t * t)%Qc; [ring|]; rewrite E; unfold z0; ring.
Qed.

(** The full statement fails: x = -2 x(-1) + e, y(+1) = 3 y + e is solved, and the rule that is
    returned explodes; no bounded path solves the equations. *)
Theorem C101_refuted :
  ~ (forall (qr : nat -> nat -> mat Qc -> res (mat Qc * mat Qc)) (rank : nat -> nat -> mat Qc -> nat) (ordqz : nat -> mat Qc -> mat Qc -> res (schur Qc))
       (inv : nat -> mat Qc -> res (mat Qc)) (solve : nat -> nat -> mat Qc -> mat Qc -> res (mat Qc))
       (endog stoch : list string) (exprs : list (ast Qc)) (params : list (string * Qc)) (ss : list Qc) (m : repr Qc) (A : nd Qc) (s : state Qc) (gy gu : nd Qc),
     qr_routine Qc QO qr -> schur_routine Qc QO Qcle ordqz -> finite_quotients Qc QO ordqz -> inverse_routine Qc QO inv ->
     linear_routine Qc QO solve -> refuses_singular Qc QO solve ->
     readable endog stoch exprs params -> List.length exprs = List.length endog ->
     (forall l, signature Qc endog exprs l -> differentiates Qc QO Qcle q_ops endog stoch exprs params qgrad qjacobian l) ->
     List.length ss = List.length endog -> smooth_at Qc QO endog stoch exprs params no_function squares ss ->
     Forall (fun e => steady_residual Qc QO q_ops endog stoch params e ss (r0 QO)) exprs ->
     build Qc endog stoch exprs params = Ok m -> model_jacobian Qc q_ops (r0 QO) qgrad m ss = Ok A ->
     state_space Qc QO qlt qr rank ordqz (r_index Qc m) A = Ok s ->
     solve_first_order Qc QO inv solve (r_index Qc m) s = Ok (gy, gu) ->
     forall lag u, exists y, path_holds Qc QO Qcle q_ops endog stoch params exprs ss lag u y /\ bounded Qc QO Qcle (List.length endog) y).
Proof.
  intros H.
  assert (E : match build Qc dendog dstoch dmodel [] with Ok m =>
    match model_jacobian Qc q_ops (r0 QO) qgrad m [z0; z0] with Ok A =>
      match solution QO qlt (qr_with []) rank_all bad_qz bad_inv qsolve (r_index Qc m) A with
      | Ok (s, (gy, gu)) => true
      | Err _ => false end | Err _ => false end | Err _ => false end = true) by (vm_compute; reflexivity).
  destruct (build Qc dendog dstoch dmodel []) as [m|] eqn:Em; [|discriminate E].
  destruct (model_jacobian _ _ _ _ m [z0; z0]) as [A|] eqn:EA; [|discriminate E]; unfold solution in E.
  destruct (state_space _ _ _ _ _ _ (r_index Qc m) _) as [s|] eqn:Es; [|discriminate E]; cbn [bind] in E.
  destruct (solve_first_order _ _ _ _ (r_index Qc m) s) as [[gy gu]|] eqn:Eg; [|discriminate E]; clear E.
  assert (Hfin : finite_quotients Qc QO bad_qz) by (apply quotients_ok; vm_compute; reflexivity).
  destruct (H _ _ _ _ _ dendog dstoch dmodel [] [z0; z0] _ _ _ _ _ (qr_with_ok _) (qz_with_ok _) Hfin (inv_with_ok _) qsolve_ok qsolve_refuses dmodel_readable eq_refl dmodel_differentiates eq_refl
    (dmodel_smooth [z0; z0] eq_refl) dmodel_steady Em EA Es Eg (fun _ => 1%Qc) (fun _ => 0%Qc)) as (y & Hy & Bd); clear H.
  apply Forall_inv in Hy; destruct Hy as [D0 D]; apply dmodel_grows in D0.
  assert (Ey : forall t, y (S t) 0 = (q (-2) 1 * y t 0%nat)%Qc) by (intros t; rewrite (dmodel_grows _ _ _ _ (D t)); change (r0 QO) with 0%Qc; ring).
  pose proof (each_bnd Qc QO Qcinv Q_field Qcle Q_ordered 2 y 0 Bd ltac:(lia)) as [C HC].
  pose proof (growth Qc QO Qcinv Q_field Qcle Q_ordered (eq_dec0 Qc QO Qcle Q_ordered qlt qlt_le) Q_archimedean (fun t => y t 0%nat * y t 0%nat)%Qc (q 4 1) C) as Z.
  assert (Y0 : y 0 0 = q (-2) 1) by (rewrite D0; ring).
  assert (Z0 : (y 0%nat 0%nat * y 0%nat 0%nat)%Qc = 0%Qc).
  { refine (Z _ _ HC _ 0).
    - intros t; cbv beta; rewrite (Ey t); change (rmul QO) with Qcmult; replace (q 4 1) with (q (-2) 1 * q (-2) 1)%Qc by (apply Qc_is_canon; reflexivity); ring.
    - intros t; exact (sq_nonneg Qc QO Qcinv Q_field Qcle Q_ordered (y t 0)).
    - apply qlt_true; vm_compute; reflexivity. }
  rewrite Y0 in Z0; vm_compute in Z0; discriminate Z0.
Qed.
Print Assumptions C101_refuted.
