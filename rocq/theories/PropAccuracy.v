(** The solution of a model and its equations: properties C78 and C79. *)
From Verif Require Import Base Syntax Eval EvalSpec FactorySpec Factory Indexing IndexingSpec IndexingProofs IndexingProofs2 DynFunc DynSpec DynProofs DynProofs2 Nd Mat NdProofs SimSpec OrderProofs PropDyn
  CalcSpec CalcProofs CalcProofs2 CalcProofs3 Linearize LinearizeSpec LinearizeProofs FirstOrder FirstOrderSpec PropFirst Sylvester SylvesterSpec SecondOrder SecondOrderSpec PropSecond PropLinear
  AccuracySpec AccuracyProofs AccuracyProofs2 NdInst FirstOrderExample Gauss SylvesterExample LinearExample.
From Coq Require Import ZArith QArith Qcanon.
Local Open Scope string_scope.
Local Open Scope list_scope.
Local Open Scope nat_scope.

(** The offsets at which the variables occur. *)
Definition offsets_of {F} (endog : list string) (exprs : list (ast F)) (L : list (list Z)) : Prop :=
  List.length L = List.length endog /\ forall i k, i < List.length endog -> (at_k L i k = true <-> occurs_at F endog exprs i k).

Lemma lls_offsets F endog exprs lls : NoDup endog -> regular_model F endog exprs -> set_lead_lags F endog exprs = Ok lls ->
  offsets_of endog exprs (map snd lls) /\ in_range (map snd lls) /\ NoDup (map fst lls).
Proof.
  intros Ne R E; pose proof (lls_length F endog exprs lls E) as Ll.
  split; [split; [rewrite map_length; exact Ll|]|split; [exact (regular_in_range F endog exprs lls R E)|]].
  - intros i k Hi; apply (lls_at F endog exprs lls E i k); rewrite Ll; exact Hi.
  - destruct (set_spec F endog exprs lls E) as (K & _); change (map fst lls) with (keys lls); rewrite K; exact Ne.
Qed.

(** ** C78: to first order the solution solves the equations *)

(** Full statement: for every model and every steady state where its equations are smooth, if
    the first-order solution is returned, then it solves the equations to first order: take
    any deviations of last period, any shocks, and any distribution of tomorrow's shocks with
    mean zero, and let all three be scaled by [t]; let today follow the rule, and tomorrow, for
    each outcome of the shocks.  Then the expected value of each equation, divided by [t],
    goes to zero with [t].  Proved for [readable] models, unless the last root is complex and
    no root is beyond one. *)
Theorem C78_partial :
  forall (F : Type) (O : rops F) (finv : F -> F) (le : F -> F -> Prop) (ltb : F -> F -> bool) (P : ops F) (fns : string -> smooth_fun F) (pows : F -> smooth_fun F)
    (grad : (list F -> res F) -> list F -> res (list F)) (jacobian : (list F -> res (list F)) -> list F -> res (list (list F)))
    (qr : nat -> nat -> mat F -> res (mat F * mat F)) (rank : nat -> nat -> mat F -> nat) (ordqz : nat -> mat F -> mat F -> res (schur F))
    (inv : nat -> mat F -> res (mat F)) (solve : nat -> nat -> mat F -> mat F -> res (mat F))
    (endog stoch : list string) (exprs : list (ast F)) (params : list (string * F)) (ss : list F) (m : repr F) (A : nd F) (s : state F) (gy gu : nd F),
  is_field O finv -> is_ordered O le -> (forall x y, ltb x y = false <-> le y x) -> interprets F O le P fns pows ->
  qr_routine F O qr -> schur_routine F O le ordqz -> inverse_routine F O inv -> linear_routine F O solve ->
  readable endog stoch exprs params -> List.length exprs = List.length endog ->
  (forall l, signature F endog exprs l -> differentiates F O le P endog stoch exprs params grad jacobian l) ->
  List.length ss = List.length endog -> smooth_at F O endog stoch exprs params fns pows ss ->
  Forall (fun e => steady_residual F O P endog stoch params e ss (r0 O)) exprs ->
  build F endog stoch exprs params = Ok m -> model_jacobian F P (r0 O) grad m ss = Ok A ->
  state_space F O ltb qr rank ordqz (r_index F m) A = Ok s ->
  (exists e, In e (eigen s) /\ beyond_one F O le e) \/ not_complex F O (last (eigen s) Nan) ->
  solve_first_order F O inv solve (r_index F m) s = Ok (gy, gu) ->
  exists L g, offsets_of endog exprs L /\ about F L g /\ proper g /\ rk g = List.length stoch /\
    gy = squeeze F (M2 (rn g) (rs g) (ry g)) /\ gu = squeeze F (M2 (rn g) (rk g) (ru g)) /\
    forall (n : nat) (p : nat -> F) (e : nat -> nat -> F) (x u : nat -> F) (now : F -> nat -> F) (next : nat -> F -> nat -> F),
      centred F O (List.length stoch) n p e ->
      let lag t v := rmul O t (x v) in
      let shock t l := rmul O t (u l) in
      (forall t, decides F O g (lag t) (shock t) (now t)) ->
      (forall q t, q < n -> decides F O g (now t) (fun l => rmul O t (e q l)) (next q t)) ->
      Forall (expected_small F O le P endog stoch params (small1 F O le) n p ss lag now next shock) exprs.
Proof.
  intros F O finv le ltb P fns pows grad jacobian qr rank ordqz inv solve endog stoch exprs params ss m A s gy gu FT OR Hl HI Hqr Hqz Hinv Hs
    (Nd & Nc & R & W & Dj) Lx Hd Ls Sm SS Em EA Es Hx Eg.
  destruct (expansion F O finv FT le OR P fns pows HI endog stoch exprs params Nd Nc R W Dj ss Ls Sm grad jacobian Hd)
    as (m' & lls & J & H & Em' & El & Ei & Sg & EJ & _ & _ & EX).
  rewrite Em in Em'; injection Em' as <-; rewrite EJ in EA; injection EA as <-.
  pose proof (Ne endog stoch Nd) as Ne.
  destruct (lls_offsets F endog exprs lls Ne R El) as (Of & Ir & Nk); pose proof (proj1 Of) as LL.
  rewrite Ei in Es, Eg; cbn zeta in EX; set (L := map snd lls) in *; rewrite Lx, <- LL in Es.
  destruct (C40_partial F O finv le ltb qr rank ordqz inv solve lls (List.length stoch) (array L (List.length stoch)) J s gy gu FT OR Hl Hqr Hqz Hinv Hs Nk Ir) as (g & Ab & Pg & K & E1 & E2 & S1);
    [apply index_manager_array; assumption|exact Es|exact Hx|exact Eg|].
  exists L, g; split; [exact Of|]; split; [exact Ab|]; split; [exact Pg|]; split; [exact K|]; split; [exact E1|]; split; [exact E2|].
  intros n p e x u now next [Hp Hm] lag shock Hnow Hnext.
  assert (Hn : rn g = List.length L) by apply Ab.
  destruct (first_jets F O finv FT le OR L g Pg Hn n p e Hp) with (J := J) (x := x) (u := u) (now := now) (next := next) as (nb & fb & Jn & Jf & G);
    [intros l Hl'; apply Hm; rewrite <- K; exact Hl'|exact S1|exact Hnow|intros; apply Hnext; assumption|].
  apply (small_first F O finv FT le OR P endog stoch params L ss exprs J H EX SS g Hn K n p x u now next nb (fun _ => r0 O) fb (fun _ _ => r0 O) Jn Jf).
  intros i Hi; rewrite <- K; apply G; rewrite LL, <- Lx; exact Hi.
Qed.
Print Assumptions C78_partial.

(** ** C79: to second order the solution solves the equations *)

(** Full statement: as C78, with the second-order solution and the second order: the
    covariance matrix of tomorrow's shocks is the one the solution is computed for, times
    [t^2], and the term for uncertainty is scaled by [t^2] with it.  Then the expected value
    of each equation, divided by [t^2], goes to zero with [t].  Proved for the models of C78. *)
Theorem C79_partial :
  forall (F : Type) (O : rops F) (finv : F -> F) (le : F -> F -> Prop) (ltb eqb : F -> F -> bool) (P : ops F) (fns : string -> smooth_fun F) (pows : F -> smooth_fun F)
    (grad : (list F -> res F) -> list F -> res (list F)) (jacobian : (list F -> res (list F)) -> list F -> res (list (list F)))
    (qr : nat -> nat -> mat F -> res (mat F * mat F)) (rank : nat -> nat -> mat F -> nat) (ordqz : nat -> mat F -> mat F -> res (schur F))
    (inv : nat -> mat F -> res (mat F)) (qz : nat -> mat F -> mat F -> res (mat F * mat F * mat F * mat F))
    (solve : nat -> nat -> mat F -> mat F -> res (mat F)) (nan : F)
    (endog stoch : list string) (exprs : list (ast F)) (params : list (string * F)) (ss : list F) (m : repr F) (A B : nd F) (V : mat F) (s : state F) (gy gu xx xu uu dl : nd F),
  is_field O finv -> is_ordered O le -> (forall x y, ltb x y = false <-> le y x) -> (forall x y, eqb x y = true <-> x = y) -> interprets F O le P fns pows ->
  qr_routine F O qr -> schur_routine F O le ordqz -> inverse_routine F O inv ->
  real_schur_routine F O qz -> linear_routine F O solve -> fails_when_singular F O solve -> refuses_singular F O solve ->
  readable endog stoch exprs params -> List.length exprs = List.length endog ->
  (forall l, signature F endog exprs l -> differentiates F O le P endog stoch exprs params grad jacobian l) ->
  List.length ss = List.length endog -> smooth_at F O endog stoch exprs params fns pows ss ->
  Forall (fun e => steady_residual F O P endog stoch params e ss (r0 O)) exprs ->
  build F endog stoch exprs params = Ok m -> model_jacobian F P (r0 O) grad m ss = Ok A -> model_hessian F P (r0 O) grad jacobian m ss = Ok B ->
  (forall l l', l < List.length stoch -> l' < List.length stoch -> V l l' = V l' l) ->
  state_space F O ltb qr rank ordqz (r_index F m) A = Ok s ->
  (exists e, In e (eigen s) /\ beyond_one F O le e) \/ not_complex F O (last (eigen s) Nan) ->
  solve_first_order F O inv solve (r_index F m) s = Ok (gy, gu) ->
  solve_second_order F O eqb qz solve nan (r_index F m) gy gu A B (M2 (List.length stoch) (List.length stoch) V) = Ok (xx, xu, uu, dl) ->
  exists L g, offsets_of endog exprs L /\ about F L g /\ proper g /\ rk g = List.length stoch /\
    gy = squeeze F (M2 (rn g) (rs g) (ry g)) /\ gu = squeeze F (M2 (rn g) (rk g) (ru g)) /\
    sized F xx (rn g) (rs g * rs g) /\ sized F xu (rn g) (rs g * rk g) /\ sized F uu (rn g) (rk g * rk g) /\ sized F dl (rn g) 1 /\
    forall (n : nat) (p : nat -> F) (e : nat -> nat -> F) (x u : nat -> F) (now : F -> nat -> F) (next : nat -> F -> nat -> F),
      centred F O (List.length stoch) n p e -> covariance F O (List.length stoch) n p e V ->
      let lag t v := rmul O t (x v) in
      let shock t l := rmul O t (u l) in
      (forall t, moves F O g xx xu uu dl (lag t) (shock t) (rmul O t t) (now t)) ->
      (forall q t, q < n -> moves F O g xx xu uu dl (now t) (fun l => rmul O t (e q l)) (rmul O t t) (next q t)) ->
      Forall (expected_small F O le P endog stoch params (small2 F O le) n p ss lag now next shock) exprs.
Proof.
  intros F O finv le ltb eqb P fns pows grad jacobian qr rank ordqz inv qz solve nan endog stoch exprs params ss m A B V s gy gu xx xu uu dl FT OR Hl Heq HI Hqr Hqz Hinv Hrs Hs He Hu
    (Nd & Nc & R & W & Dj) Lx Hd Ls Sm SS Em EA EB Vsym Es Hx Eg E2o.
  destruct (expansion F O finv FT le OR P fns pows HI endog stoch exprs params Nd Nc R W Dj ss Ls Sm grad jacobian Hd)
    as (m' & lls & J & H & Em' & El & Ei & Sg & EJ & EH & Hsym & EX).
  rewrite Em in Em'; injection Em' as <-; rewrite EJ in EA; injection EA as <-; rewrite EH in EB; injection EB as <-.
  pose proof (Ne endog stoch Nd) as Ne.
  destruct (lls_offsets F endog exprs lls Ne R El) as (Of & Ir & Nk); pose proof (proj1 Of) as LL.
  rewrite Ei in Es, Eg, E2o; cbn zeta in EX, Hsym; set (L := map snd lls) in *; rewrite Lx, <- LL in Es, E2o.
  assert (Two : twice_one O <> r0 O) by (exact (two_nz F O finv FT le OR)).
  destruct (C74_chain_partial F O finv le ltb eqb qr rank ordqz inv qz solve nan lls (List.length stoch) (array L (List.length stoch)) J H V s gy gu xx xu uu dl FT OR Hl Two Heq Hqr Hqz Hinv Hrs Hs He Hu Nk Ir)
    as (g & XX & XU & UU & C & Ab & Pg & K & E1 & E2 & S1 & (Z1 & Z2 & Z3 & Z4 & Y1 & Y2 & Y3 & Y4) & S2 & SC);
    [apply index_manager_array; assumption| |exact Vsym|exact Es|exact Eg|exact E2o|].
  { intros i c d Hi; fold L in Hi; rewrite LL, <- Lx in Hi; apply nth_error_Some in Hi; destruct (nth_error exprs i) as [e|] eqn:Ee; [|congruence]; apply (Hsym i e), Ee. }
  specialize (S1 Hx).
  exists L, g; split; [exact Of|]; split; [exact Ab|]; split; [exact Pg|]; split; [exact K|]; split; [exact E1|]; split; [exact E2|].
  split; [exact Z1|]; split; [exact Z2|]; split; [exact Z3|]; split; [exact Z4|].
  intros n p e x u now next [Hp Hm] HV lag shock Hnow Hnext.
  assert (Hn : rn g = List.length L) by apply Ab.
  destruct (second_jets F O finv FT le OR L g Pg Hn n p e Hp) with (V := V) (J := J) (H := H) (XX := XX) (XU := XU) (UU := UU)
    (Axx := fun i a b => entries F xx i (a * rs g + b)) (Axu := fun i a l => entries F xu i (a * rk g + l)) (Auu := fun i l m => entries F uu i (l * rk g + m))
    (C := C) (D := fun i => entries F dl i 0) (x := x) (u := u) (now := now) (next := next) as (nb & nc & fb & fc & Jn & Jf & G).
  - intros l Hl'; apply Hm; rewrite <- K; exact Hl'.
  - intros l l' H1 H2; apply HV; rewrite <- K; assumption.
  - exact Two.
  - exact Y1.
  - exact Y2.
  - exact Y3.
  - exact Y4.
  - exact S1.
  - exact S2.
  - exact SC.
  - intros t i Hi; rewrite (Hnow t i Hi); unfold line, bend, lag, shock; change (Sum F O) with (rsum F O).
    pose proof (F_R (FT : field_theory (r0 O) (r1 O) (radd O) (rmul O) (rsub O) (ropp O) (rdiv O) finv eq)) as RT; destruct RT as [? ? Ha ? ? ? ? ? ?]; rewrite !Ha; reflexivity.
  - intros q t i Hq Hi; rewrite (Hnext q t Hq i Hi); unfold line, bend; change (Sum F O) with (rsum F O).
    pose proof (F_R (FT : field_theory (r0 O) (r1 O) (radd O) (rmul O) (rsub O) (ropp O) (rdiv O) finv eq)) as RT; destruct RT as [? ? Ha ? ? ? ? ? ?]; rewrite !Ha; reflexivity.
  - apply (small_second F O finv FT le OR P endog stoch params L ss exprs J H EX SS g Hn K n p x u now next nb nc fb fc Jn Jf).
    intros i Hi; rewrite <- K; apply G; rewrite LL, <- Lx; exact Hi.
Qed.
Print Assumptions C79_partial.

(** Whatever happened before there is a motion that follows the arrays, and only one. *)
Theorem C79_motion :
  forall (F : Type) (O : rops F) (g : rule F) (xx xu uu dl : nd F) (before u : nat -> F) (scale : F), proper g ->
  (exists after, moves F O g xx xu uu dl before u scale after) /\ (exists after, decides F O g before u after) /\
  (forall after after', moves F O g xx xu uu dl before u scale after -> moves F O g xx xu uu dl before u scale after' -> forall v, v < rn g -> after v = after' v) /\
  (forall after after', decides F O g before u after -> decides F O g before u after' -> forall v, v < rn g -> after v = after' v).
Proof.
  intros F O g xx xu uu dl b u scale Pg; split; [apply (spread F g Pg)|]; split; [apply (spread F g Pg)|]; split; intros a a' H1 H2 v Hv; destruct (every_var F (repeat [] (rn g)) g Pg (eq_sym (repeat_length [] (rn g))) v Hv) as (i & Hi & <-); rewrite (H1 i Hi), (H2 i Hi); reflexivity.
Qed.
Print Assumptions C79_motion.

(** ** A concrete model *)

(** Each of two shocks is one up or one down; their correlation is 1/2. *)
Definition two_p (s : nat) : Qc := nth s [q 3 8; q 1 8; q 1 8; q 3 8] z0.
Definition two_e (s l : nat) : Qc := nth l (nth s [[z1; z1]; [z1; q (-1) 1]; [q (-1) 1; z1]; [q (-1) 1; q (-1) 1]] []) z0.
Example C79_nonvacuous :
  is_field QO Qcinv /\ is_ordered QO Qcle /\ (forall x y, qlt x y = false <-> Qcle y x) /\ (forall x y, same x y = true <-> x = y) /\
  interprets Qc QO Qcle q_ops no_function squares /\
  qr_routine Qc QO xyz_qr /\ schur_routine Qc QO Qcle xyz_qz /\ inverse_routine Qc QO xyz_inv /\
  real_schur_routine Qc QO xyz2_real /\ linear_routine Qc QO qsolve /\ fails_when_singular Qc QO qsolve /\ refuses_singular Qc QO qsolve /\
  readable lendog lstoch lmodel lparams /\ List.length lmodel = List.length lendog /\ (forall i, i < List.length lendog -> occurs_at Qc lendog lmodel i 0) /\
  (forall l, signature Qc lendog lmodel l -> differentiates Qc QO Qcle q_ops lendog lstoch lmodel lparams qgrad qjacobian l) /\
  List.length lss = List.length lendog /\ smooth_at Qc QO lendog lstoch lmodel lparams no_function squares lss /\
  Forall (fun e => steady_residual Qc QO q_ops lendog lstoch lparams e lss (r0 QO)) lmodel /\
  (forall l l', l < List.length lstoch -> l' < List.length lstoch -> mx xyz2_V l l' = mx xyz2_V l' l) /\
  centred Qc QO (List.length lstoch) 4 two_p two_e /\ covariance Qc QO (List.length lstoch) 4 two_p two_e (mx xyz2_V) /\
  exists m A B s gy gu xx xu uu dl, build Qc lendog lstoch lmodel lparams = Ok m /\
    model_jacobian Qc q_ops (r0 QO) qgrad m lss = Ok A /\ model_hessian Qc q_ops (r0 QO) qgrad qjacobian m lss = Ok B /\
    state_space Qc QO qlt xyz_qr rank_all xyz_qz (r_index Qc m) A = Ok s /\
    (exists e, In e (eigen s) /\ beyond_one Qc QO Qcle e) /\
    solve_first_order Qc QO xyz_inv qsolve (r_index Qc m) s = Ok (gy, gu) /\
    solve_second_order Qc QO same xyz2_real qsolve z0 (r_index Qc m) gy gu A B (M2 (List.length lstoch) (List.length lstoch) (mx xyz2_V)) = Ok (xx, xu, uu, dl) /\
    shown xx [[z1; q 3 16; q 3 16; q 81 368]; [z1; z0; z0; z0]; [z0; z0; z0; q 81 368]] = true /\
    shown dl [[q 55 92]; [z0]; [q 55 92]] = true.
Proof.
  split; [exact Q_field|]; split; [exact Q_ordered|]; split; [exact qlt_le|]; split; [exact same_iff|]; split; [exact q_interprets|].
  split; [apply qr_with_ok|]; split; [apply qz_with_ok|]; split; [apply inv_with_ok|]; split; [apply real_qz_with_ok|].
  split; [exact qsolve_ok|]; split; [exact qsolve_err|]; split; [exact qsolve_refuses|].
  split; [exact lmodel_readable|]; split; [reflexivity|]; split; [exact lmodel_current|]; split; [exact lmodel_differentiates|]; split; [reflexivity|].
  split; [apply lmodel_smooth; reflexivity|]; split; [exact lmodel_steady|].
  split; [intros [|[|l]] [|[|m]] Hl Hm; try reflexivity; cbn in Hl, Hm; lia|].
  split; [split; [apply Qc_is_canon; vm_compute; reflexivity|intros [|[|l]] Hl; [..|cbn in Hl; lia]; apply Qc_is_canon; vm_compute; reflexivity]|].
  split; [intros [|[|l]] [|[|m]] Hl Hm; try (cbn in Hl, Hm; lia); apply Qc_is_canon; vm_compute; reflexivity|].
  assert (E : match build Qc lendog lstoch lmodel lparams with Ok m =>
    match model_jacobian Qc q_ops (r0 QO) qgrad m lss, model_hessian Qc q_ops (r0 QO) qgrad qjacobian m lss with Ok A, Ok B =>
      match second_of QO qlt same xyz_qr rank_all xyz_qz xyz_inv xyz2_real qsolve z0 (r_index Qc m) A B (M2 2 2 (mx xyz2_V)) with
      | Ok (s, (gy, gu), (xx, xu, uu, dl)) =>
        match eigen s with [Fin a b; Fin c d; Fin e f] => same e (q 2 1) && same f z0 | _ => false end &&
        shown xx [[z1; q 3 16; q 3 16; q 81 368]; [z1; z0; z0; z0]; [z0; z0; z0; q 81 368]] &&
        shown dl [[q 55 92]; [z0]; [q 55 92]]
      | Err _ => false end | _, _ => false end | Err _ => false end = true) by (vm_compute; reflexivity).
  destruct (build Qc lendog lstoch lmodel lparams) as [m|]; [|discriminate E].
  destruct (model_jacobian _ _ _ _ m lss) as [A|] eqn:EA; [|discriminate E].
  destruct (model_hessian _ _ _ _ _ m lss) as [B|] eqn:EB; [|discriminate E].
  unfold second_of, solution in E.
  destruct (state_space _ _ _ _ _ _ (r_index Qc m) _) as [s|] eqn:Es; [|discriminate E]; cbn [bind] in E.
  destruct (solve_first_order _ _ _ _ (r_index Qc m) s) as [[gy gu]|] eqn:Eg; [|discriminate E]; cbn [bind] in E.
  destruct (solve_second_order _ _ _ _ _ _ (r_index Qc m) _ _ _ _ _) as [[[[xx xu] uu] dl]|] eqn:E2; [|discriminate E]; cbn [bind] in E.
  do 2 (apply andb_true_iff in E as [E ?]).
  exists m, A, B, s, gy, gu, xx, xu, uu, dl; split; [reflexivity|]; split; [assumption|]; split; [assumption|]; split; [assumption|].
  split; [|repeat (split; [assumption|]); assumption].
  destruct (eigen s) as [|[a b| |] [|[c d| |] [|[e f| |] [|? ?]]]]; try discriminate E; apply andb_true_iff in E as [X Y]; apply same_eq in X, Y; subst.
  eexists; split; [right; right; left; reflexivity|left; apply qlt_true; vm_compute; reflexivity].
Qed.
