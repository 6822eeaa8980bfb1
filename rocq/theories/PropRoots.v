(** Verification that passes, and the stability of the solution: property C100. *)
From Verif Require Import Base Syntax Semantics Nd NdProofs NdInst Mat MatProofs SimSpec Sim SimProofs SimProofs2 SimProofs3
  Indexing IndexingSpec IndexingProofs IndexingProofs2 SummaryProofs
  OrderProofs FirstOrder FirstOrderSpec FirstOrderProofs FirstOrderProofs2 FirstOrderProofs3 FirstOrderProofs4 FirstOrderProofs5 FirstOrderCurrent FirstOrderExact FirstOrderExample
  MomentsSpec Moments MomentsProofs MomentsProofs2 MomentsExample PropMoments PropMomentsExist
  SylvesterSpec SylvesterExample StableSpec StableProofs StableProofs2 StableProofs3 StableProofs4 StableProofs5 PropFirst PropStable PropSettle PathSimProofs.
From Verif Require Verify.
From Coq Require Import ZArith QArith Qcanon Permutation.
Local Open Scope string_scope.
Local Open Scope list_scope.
Local Open Scope nat_scope.

(** ** C100: a model that passes verification has a stable solution, and moments *)

(** Full statement: if a state space has just been made, a rule was returned from it and its
    verification raises nothing, the paths of the rule are the bounded solutions of the
    linearised equations, bounded shocks keep them bounded, without shocks they return to the
    steady state, and the states have one stationary covariance and one stationary mean.
    Proved when no root lies on the unit circle or is 0/0. *)
Theorem C100_partial :
  forall (F : Type) (O : rops F) (finv : F -> F) (le : F -> F -> Prop) (ltb : F -> F -> bool)
    (qr : nat -> nat -> mat F -> res (mat F * mat F)) (rank : nat -> nat -> mat F -> nat) (ordqz : nat -> mat F -> mat F -> res (schur F))
    (inv : nat -> mat F -> res (mat F)) (solve : nat -> nat -> mat F -> mat F -> res (mat F)) (out : cnum F -> bool)
    (lls : list (string * list Z)) (k : nat) (X : indexes) (J : mat F) (s : state F) (gy gu : nd F) (rank22 size22 : nat),
  is_field O finv -> is_ordered O le -> (forall x y, ltb x y = false <-> le y x) -> archimedean F O le -> (forall e, out e = true <-> outside_circle F O le e) ->
  qr_routine F O qr -> schur_routine F O le ordqz -> finite_quotients F O ordqz -> inverse_routine F O inv -> linear_routine F O solve -> refuses_singular F O solve ->
  NoDup (map fst lls) -> in_range (map snd lls) -> index_manager lls k = Ok X ->
  let L := map snd lls in
  let n := List.length L in
  state_space F O ltb qr rank ordqz X (M2 n (List.length (timed_vars L) + k) J) = Ok s ->
  solve_first_order F O inv solve X s = Ok (gy, gu) ->
  snd (Verify.verify (cnum F) out (Verify.StateSpace (eigen s) rank22 size22 None (n_forward X))) = None ->
  (forall e, In e (eigen s) -> inside_circle F O le e \/ outside_circle F O le e) ->
  separated F O le (eigen s) (List.length (members_of L (backward L))) /\
  exists g, about F L g /\ proper g /\ rk g = k /\
    gy = squeeze F (M2 (rn g) (rs g) (ry g)) /\ gu = squeeze F (M2 (rn g) (rk g) (ru g)) /\
    (forall lag u y, path_follows F O g lag u y <-> path_solves F O L k J lag u y /\ bounded F O le n y) /\
    (forall lag u y, bounded F O le k u -> path_shocked F O g lag u y -> bounded F O le n y) /\
    (forall y, (forall t, decides F O g (y t) (fun _ => r0 O) (y (S t))) -> vanishes F O le n y) /\
    stable F O g /\ no_unit_root F O g.
Proof.
  intros F O finv le ltb qr rank ordqz inv solve out lls k X J s gy gu rank22 size22 FT OR Hl AR Hout Hqr Hqz Hfin Hinv Hsolve Hsing Hn Hr HX L n Hs Hg Hv Hall.
  rewrite (index_manager_array lls k Hn Hr) in HX; injection HX as <-; fold L in Hs, Hg, Hv.
  pose proof (solved_current F O ltb qr rank ordqz inv solve L k J _ s (gy, gu) Hr Hs Hg) as H0.
  destruct (solved_inv F O finv FT le ltb qr rank ordqz inv solve Hqr Hqz L k H0 J s (gy, gu) Hs Hg) as (B & LN & _).
  assert (Hsep : separated F O le (eigen s) (List.length (members_of L (backward L)))).
  { destruct (Verify.verify _ _ _) as [s' o] eqn:Ev; cbn [snd] in Hv; subst o; apply passed_count in Ev; [|reflexivity]; cbn [Verify.eigen Verify.n_fwd] in Ev.
    rewrite (n_forward_is L k H0) in Ev; rewrite (nf_is L k H0) in LN.
    apply (counted F O le OR out Hout (eigen s) _ (List.length (MX L) + List.length (PF L))); try assumption.
    assert (Hnb : 0 < List.length (PB L) + List.length (MX L)) by (rewrite <- (nb_is L k H0); exact B).
    destruct (state_inv F O finv FT ltb qr rank ordqz Hqr L k H0 Hnb J s Hs) as (a & Q & _ & _ & _ & _ & d & e' & q0 & kk' & _ & Eq & _ & Es).
    pose proof (Hqz _ _ _ _ Eq) as Sf; rewrite Es; cbn [eigen state_of].
    rewrite (f_len _ _ _ _ _ _ _ Sf); exact (f_ordered _ _ _ _ _ _ _ Sf). }
  split; [exact Hsep|]; rewrite (nb_is L k H0) in B, Hsep.
  destruct (first_order_stable F O finv FT le OR ltb Hl qr rank ordqz inv solve Hqr Hqz Hinv Hsolve Hsing Hfin AR L k H0 B J s gy gu Hs Hg Hsep)
    as (g & A & P & K & E1 & E2 & G1 & G2 & G3 & G4).
  pose proof (eq_dec0 F O le OR ltb Hl) as dec.
  exists g; repeat (split; [assumption|]).
  pose proof (proj1 A) as An; fold n in G4, An; rewrite <- An in G4.
  split; [exact (is_stable F O finv FT le OR dec AR g P G4)|exact (no_unit F O finv FT le OR dec AR g P G4)].
Qed.
Print Assumptions C100_partial.

(** So moments that are returned are those of the stationary process of the returned rule,
    and there is one.  [verified] is what the verification, which is run first, says. *)
Definition verified {F} (out : cnum F -> bool) (fails : Verify.bk -> exn) (es : list (cnum F)) (rank22 size22 forwards : nat) : res unit :=
  match snd (Verify.verify (cnum F) out (Verify.StateSpace es rank22 size22 None forwards)) with None => Ok tt | Some b => Err (fails b) end.
Theorem C100_moments_partial :
  forall (F : Type) (O : rops F) (finv : F -> F) (le : F -> F -> Prop) (ltb : F -> F -> bool)
    (qr : nat -> nat -> mat F -> res (mat F * mat F)) (rank : nat -> nat -> mat F -> nat) (ordqz : nat -> mat F -> mat F -> res (schur F))
    (inv : nat -> mat F -> res (mat F)) (solve : nat -> nat -> mat F -> mat F -> res (mat F)) (lyap : nat -> mat F -> mat F -> res (mat F)) (out : cnum F -> bool)
    (fails : Verify.bk -> exn)
    (lls : list (string * list Z)) (k : nat) (X : indexes) (J : mat F) (s : state F) (gy gu : nd F) (rank22 size22 : nat) (m : smodel F),
  is_field O finv -> is_ordered O le -> (forall x y, ltb x y = false <-> le y x) -> archimedean F O le -> (forall e, out e = true <-> outside_circle F O le e) ->
  qr_routine F O qr -> schur_routine F O le ordqz -> finite_quotients F O ordqz -> inverse_routine F O inv -> linear_routine F O solve -> refuses_singular F O solve ->
  solves_lyapunov F O lyap ->
  NoDup (map fst lls) -> in_range (map snd lls) -> index_manager lls k = Ok X ->
  let L := map snd lls in
  let n := List.length L in
  1 < n ->
  state_space F O ltb qr rank ordqz X (M2 n (List.length (timed_vars L) + k) J) = Ok s ->
  solve_first_order F O inv solve X s = Ok (gy, gu) ->
  (forall e, In e (eigen s) -> inside_circle F O le e \/ outside_circle F O le e) ->
  List.length (m_ss m) = n -> List.length (m_shocks m) = k -> m_order m = dr_order X -> m_state m = members is_state (dr X) ->
  (forall i j, i < k -> j < k -> m_sigma m i j = m_sigma m j i) ->
  let check := verified out fails (eigen s) rank22 size22 (n_forward X) in
  (forall c, cov F O lyap check m (Sim.First gy gu) = Ok c ->
   exists g C, about F L g /\ (forall lag u y, path_follows F O g lag u y <-> path_solves F O L k J lag u y /\ bounded F O le n y) /\
     c = M2 n n C /\
     (exists (R : randoms F) y u, lawful F O R /\ follows F O R g (m_sigma m) y u /\ stationary F R g y) /\
     (forall (R : randoms F) y u, lawful F O R -> follows F O R g (m_sigma m) y u -> stationary F R g y ->
      forall t v w, v < n -> w < n -> C v w = covariance R (y t v) (y t w))) /\
  (forall p l, autocov F O lyap check m (Sim.First gy gu) p = Ok l ->
   exists g, about F L g /\ (forall lag u y, path_follows F O g lag u y <-> path_solves F O L k J lag u y /\ bounded F O le n y) /\
     List.length l = Z.to_nat p /\
     (exists (R : randoms F) y u, lawful F O R /\ follows F O R g (m_sigma m) y u /\ stationary F R g y) /\
     forall i, i < Z.to_nat p -> exists C, nth i l (S0 (r0 O)) = M2 n n C /\
     forall (R : randoms F) y u, lawful F O R -> follows F O R g (m_sigma m) y u -> stationary F R g y ->
     forall t v w, v < n -> w < n -> C v w = covariance R (y (t + S i) v) (y t w)).
Proof.
  intros F O finv le ltb qr rank ordqz inv solve lyap out fails lls k X J s gy gu rank22 size22 m FT OR Hl AR Hout Hqr Hqz Hfin Hinv Hsolve Hsing HL Hn Hr HX L n H1 Hs Hg Hall
    Lm Lk Hmo Hms Sy check.
  pose proof (F_R (FT : field_theory (r0 O) (r1 O) (radd O) (rmul O) (rsub O) (ropp O) (rdiv O) finv eq)) as RT.
  assert (G : check = Ok tt \/ exists e, check = Err e).
  { unfold check, verified; destruct (snd _); [right; eexists; reflexivity|left; reflexivity]. }
  assert (Main : check = Ok tt -> exists g, about F L g /\ (forall lag u y, path_follows F O g lag u y <-> path_solves F O L k J lag u y /\ bounded F O le n y) /\
    has_rule F g m (Sim.First gy gu) /\ rk g = k /\ rn g = n /\ stable F O g).
  { intros Ec; assert (Hv : snd (Verify.verify (cnum F) out (Verify.StateSpace (eigen s) rank22 size22 None (n_forward X))) = None).
    { unfold check, verified in Ec; destruct (snd _); [discriminate Ec|reflexivity]. }
    destruct (C100_partial F O finv le ltb qr rank ordqz inv solve out lls k X J s gy gu rank22 size22 FT OR Hl AR Hout Hqr Hqz Hfin Hinv Hsolve Hsing Hn Hr HX Hs Hg Hv Hall)
      as (_ & g & A & P & K & E1 & E2 & G1 & _ & _ & Sb & _).
    rewrite (index_manager_array lls k Hn Hr) in HX; injection HX as <-; fold L in Hs, Hg, Hmo, Hms.
    pose proof (solved_current F O ltb qr rank ordqz inv solve L k J _ s (gy, gu) Hr Hs Hg) as H0.
    pose proof A as (An & Ao & As & _); fold n in An.
    exists g; split; [exact A|]; split; [exact G1|]; split; [|split; [exact K|split; [exact An|exact Sb]]].
    split; [exact P|]; split; [|split; [exact E1|exact E2]].
    split; [rewrite Lm, An; reflexivity|]; split; [rewrite Lk, K; reflexivity|]; rewrite Hmo, Hms, (order_is L k H0), (state_positions L k H0), Ao, As; split; reflexivity. }
  assert (Exist : forall g c, has_rule F g m (Sim.First gy gu) -> rk g = k -> rn g = n -> stable F O g -> cov F O lyap (Ok tt) m (Sim.First gy gu) = Ok c ->
    exists (R : randoms F) y u, lawful F O R /\ follows F O R g (m_sigma m) y u /\ stationary F R g y).
  { intros g c HR K An Sb E.
    destruct (C44_exists F O lyap g m (Sim.First gy gu) c RT HL HR ltac:(rewrite An; exact H1) Sb ltac:(rewrite K; exact Sy) E) as (_ & _ & (R & y & u & Q1 & Q2 & Q3 & _) & _).
    exists R, y, u; auto. }
  split.
  - intros c E; destruct G as [G|[e G]]; [|exfalso; rewrite G in E; unfold cov in E; destruct (declared _ _ _) as [?|] in E; discriminate E].
    destruct (Main G) as (g & A & G1 & HR & K & An & Sb); rewrite G in E.
    destruct (C44_partial F O lyap g m (Sim.First gy gu) c RT HL HR ltac:(rewrite An; exact H1) Sb E) as (C & EC & HC & _); rewrite An in EC, HC.
    exists g, C; split; [exact A|]; split; [exact G1|]; split; [exact EC|]; split; [exact (Exist g c HR K An Sb E)|exact HC].
  - intros p l E; destruct G as [G|[e G]]; [|exfalso].
    + destruct (Main G) as (g & A & G1 & HR & K & An & Sb); rewrite G in E.
      destruct (C45_partial F O lyap g m (Sim.First gy gu) _ l RT HL HR ltac:(rewrite An; exact H1) Sb E) as (_ & Ll & H); rewrite An in H.
      exists g; split; [exact A|]; split; [exact G1|]; split; [exact Ll|]; split; [|exact H].
      unfold autocov in E; destruct (state_sigma F O lyap (Ok tt) m _) as [v|] eqn:Ev; [|discriminate E].
      destruct (cov_runs F O lyap HL g m _ HR ltac:(rewrite An; exact H1) v Ev) as (c & Ec); exact (Exist g c HR K An Sb Ec).
    + rewrite G in E; discriminate E.
Qed.
Print Assumptions C100_moments_partial.

(** Numbers outside the unit circle. *)
Definition is_outside (e : cnum Qc) : bool :=
  match e with Fin re im => qlt (Q2Qc 1) (re * re + im * im)%Qc | Inf => true | Nan => false end.
Lemma is_outside_ok e : is_outside e = true <-> outside_circle Qc QO Qcle e.
Proof.
  destruct e as [re im| |]; cbn; [|tauto|split; [discriminate|intros []]].
  split; [apply qlt_true|]; intros H; destruct (qlt _ _) eqn:E; [reflexivity|exfalso; apply H, qlt_le, E].
Qed.

(** The model of C40: z, x and y are solved from roots 1/2, 3/4 and 2. *)
Example C100_nonvacuous :
  (forall e, is_outside e = true <-> outside_circle Qc QO Qcle e) /\ solves_lyapunov Qc QO lyapD /\
  exists X s gy gu, index_manager xyz 1 = Ok X /\ state_space Qc QO qlt xyz_qr rank_all xyz_qz X (M2 3 7 (mx xyz_J)) = Ok s /\
    solve_first_order Qc QO xyz_inv qsolve X s = Ok (gy, gu) /\
    snd (Verify.verify (cnum Qc) is_outside (Verify.StateSpace (eigen s) 1 1 None (n_forward X))) = None /\
    (forall e, In e (eigen s) -> inside_circle Qc QO Qcle e \/ outside_circle Qc QO Qcle e) /\
    PropMoments.shown table_of (cov Qc QO lyapD (verified is_outside (fun _ => ValueErr) (eigen s) 1 1 (n_forward X)) (at_rest 3 X) (Sim.First gy gu)) =
      Ok [[Qmake 4 3; Qmake (-4) 5; Qmake 8 15]; [Qmake (-4) 5; Qmake 4 7; Qmake (-8) 35]; [Qmake 8 15; Qmake (-8) 35; Qmake 32 105]].
Proof.
  split; [exact is_outside_ok|]; split; [exact lyapD_solves|].
  destruct C98_nonvacuous as (_ & _ & _ & _ & _ & _ & _ & _ & _ & _ & _ & _ & X & s & gy & gu & EX & _ & Es & Eg & _ & Sp & Hall & _).
  assert (G : (match (do X <- index_manager xyz 1; do sg <- solution QO qlt xyz_qr rank_all xyz_qz xyz_inv qsolve X (M2 3 7 (mx xyz_J));
      Ok (snd (Verify.verify (cnum Qc) is_outside (Verify.StateSpace (eigen (fst sg)) 1 1 None (n_forward X))),
        PropMoments.shown table_of (cov Qc QO lyapD (verified is_outside (fun _ => ValueErr) (eigen (fst sg)) 1 1 (n_forward X)) (at_rest 3 X) (Sim.First (fst (snd sg)) (snd (snd sg)))))) with
    | Ok p => p | Err _ => (None, Err ValueErr) end) = (None, Ok [[Qmake 4 3; Qmake (-4) 5; Qmake 8 15]; [Qmake (-4) 5; Qmake 4 7; Qmake (-8) 35]; [Qmake 8 15; Qmake (-8) 35; Qmake 32 105]])) by (vm_compute; reflexivity).
  rewrite EX in G; cbn [bind] in G; unfold solution in G; rewrite Es in G; cbn [bind] in G; rewrite Eg in G; cbn [bind fst snd] in G.
  injection G as G1 G2.
  exists X, s, gy, gu; repeat (split; [assumption|]); split; [intros e I; apply Hall, I|exact G2].
Qed.

(** The full statement fails: x = x(-1) + e, y(+1) = 3 y + e passes verification, and x does
    not return. *)
Definition walk_J : table := [[q (-1) 1; z1; z0; z0; q (-1) 1]; [z0; z0; q (-3) 1; z1; q (-1) 1]].
Definition walk_qz := qz_with [Factors
  [[z1; z0]; [z0; q 3 1]] [[z1; z0]; [z0; z1]] [Fin z1 z0; Fin (q 3 1) z0] [[z1; z0]; [z0; z1]] [[z1; z0]; [z0; z1]]].
Theorem C100_refuted :
  ~ (forall (qr : nat -> nat -> mat Qc -> res (mat Qc * mat Qc)) (rank : nat -> nat -> mat Qc -> nat) (ordqz : nat -> mat Qc -> mat Qc -> res (schur Qc))
       (inv : nat -> mat Qc -> res (mat Qc)) (solve : nat -> nat -> mat Qc -> mat Qc -> res (mat Qc))
       (lls : list (string * list Z)) (k : nat) (X : indexes) (J : mat Qc) (s : state Qc) (gy gu : nd Qc) (rank22 size22 : nat),
     qr_routine Qc QO qr -> schur_routine Qc QO Qcle ordqz -> finite_quotients Qc QO ordqz -> inverse_routine Qc QO inv ->
     linear_routine Qc QO solve -> refuses_singular Qc QO solve ->
     NoDup (map fst lls) -> in_range (map snd lls) -> index_manager lls k = Ok X ->
     let L := map snd lls in
     state_space Qc QO qlt qr rank ordqz X (M2 (List.length L) (List.length (timed_vars L) + k) J) = Ok s ->
     solve_first_order Qc QO inv solve X s = Ok (gy, gu) ->
     snd (Verify.verify (cnum Qc) is_outside (Verify.StateSpace (eigen s) rank22 size22 None (n_forward X))) = None ->
     forall g, about Qc L g -> proper g -> rk g = k -> gy = squeeze Qc (M2 (rn g) (rs g) (ry g)) -> gu = squeeze Qc (M2 (rn g) (rk g) (ru g)) ->
     stable Qc QO g).
Proof.
  intros H.
  assert (E : match (do X <- index_manager bad 1; do sg <- solution QO qlt (qr_with []) rank_all walk_qz bad_inv qsolve X (M2 2 5 (mx walk_J)); Ok (X, sg)) with
    Ok (X, (s, (gy, gu))) => shown gy [[z1]; [z0]] && match snd (Verify.verify (cnum Qc) is_outside (Verify.StateSpace (eigen s) 1 1 None (n_forward X))) with None => true | Some _ => false end
    | Err _ => false end = true) by (vm_compute; reflexivity).
  destruct (index_manager bad 1) as [X|] eqn:EX; [|discriminate E]; cbn [bind] in E; unfold solution in E.
  destruct (state_space _ _ _ _ _ _ X _) as [s|] eqn:Es; [|discriminate E]; cbn [bind] in E.
  destruct (solve_first_order _ _ _ _ X s) as [[gy gu]|] eqn:Eg; [|discriminate E]; cbn [bind] in E.
  apply andb_true_iff in E as [E Ev]; destruct (snd _) eqn:Ev' in Ev; [discriminate Ev|clear Ev].
  assert (Hn : NoDup (map fst bad)) by (repeat constructor; cbn [In map fst]; intuition discriminate).
  assert (Hr : in_range (map snd bad)) by (repeat constructor; try discriminate; try lia).
  assert (Hfin : finite_quotients Qc QO walk_qz) by (apply quotients_ok; vm_compute; reflexivity).
  destruct (returned_rule Qc QO Qcinv Qcle qlt (qr_with []) rank_all walk_qz bad_inv qsolve bad 1 X (mx walk_J) s gy gu
    Q_field Q_ordered qlt_le (qr_with_ok _) (qz_with_ok _) (inv_with_ok _) qsolve_ok Hn Hr EX Es Eg) as (g & A & P & K & E1 & E2 & _).
  pose proof (H _ _ _ _ _ _ _ _ _ _ _ _ _ _ (qr_with_ok _) (qz_with_ok _) Hfin (inv_with_ok _) qsolve_ok qsolve_refuses Hn Hr EX Es Eg Ev' g A P K E1 E2) as St; clear H.
  destruct A as (An & Ao & As & Ar); cbn in An, Ao, As, Ar.
  rewrite An, Ar in E1; cbn in E1; subst gy; cbn [shown] in E; apply andb_true_iff in E as [_ E].
  pose proof (agree_eq _ _ _ _ E 0 0 ltac:(cbn; lia) ltac:(lia)) as G; cbv beta in G; cbn in G.
  assert (Z : z1 = r0 QO); [|vm_compute in Z; discriminate Z].
  apply (St (fun _ _ => z1)) with (i := 0) (j := 0); [|lia|lia].
  intros i j Hi Hj; rewrite Ar in *; replace i with 0 by lia; replace j with 0 by lia; unfold on_states; rewrite As; cbn; rewrite G; apply Qc_is_canon; reflexivity.
Qed.
Print Assumptions C100_refuted.
