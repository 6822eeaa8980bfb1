(** Simulated paths stay near the steady state, and impulse responses die out: property C99. *)
From Verif Require Import Base Syntax Semantics Nd NdProofs NdInst Mat MatProofs SimSpec Sim SimProofs SimProofs2 SimProofs3 PropSim
  Indexing IndexingSpec IndexingProofs IndexingProofs2 SummaryProofs Moments
  OrderProofs FirstOrder FirstOrderSpec FirstOrderProofs FirstOrderProofs2 FirstOrderProofs3 FirstOrderProofs4 FirstOrderProofs5 FirstOrderCurrent FirstOrderExact FirstOrderExample
  SylvesterSpec SylvesterExample StableSpec StableProofs StableProofs2 StableProofs3 StableProofs4 PropFirst PropStable PathSimProofs.
From Coq Require Import ZArith QArith Qcanon Permutation Ring.
Local Open Scope string_scope.
Local Open Scope list_scope.
Local Open Scope nat_scope.

(** ** C99: impulse responses die out, and simulated paths stay near the steady state *)

Section Endless.
  Variable F : Type.
  Variable O : rops F.
  Hypothesis RT : is_ring O.
  Let RT' : ring_theory (r0 O) (r1 O) (radd O) (rmul O) (rsub O) (ropp O) eq := RT.
  Add Ring FRsettle : RT'.
  Variable chol : nat -> (nat -> nat -> F) -> res (nat -> nat -> F).
  Variable g : rule F.
  Variable m : smodel F.
  Variable R : nat -> nat -> F.
  Hypothesis S : solved F chol g m R.
  Local Notation SS := Datatypes.S.

  (** The endless path that every simulation is the beginning of. *)
  Fixpoint endless (x0 : nat -> F) (u : nat -> nat -> F) (t : nat) : nat -> F :=
    match t with 0 => x0 | SS t' => next F O g (endless x0 u t') (u t') end.
  Lemma endless_decides x0 u t : decides F O g (endless x0 u t) (u t) (endless x0 u (SS t)).
  Proof using S. apply (next_decides F O g (proj1 S)). Qed.
  Lemma sim_endless T u init x0 p : init_dev F O m init x0 -> sim1 F O chol g m T u init = Ok p ->
    forall t v, t < T -> v < rn g -> dev F O m p t v = endless x0 (SimProofs3.mixed F O (rk g) R u) t v.
  Proof using S RT.
    intros Hi E t v Ht Hv.
    destruct (sim1_spec F O chol RT g m R T u init x0 p S ltac:(lia) Hi E) as (_ & St & Ob).
    apply (obeys_until F O RT g (proj1 S) T _ (SimProofs3.mixed F O (rk g) R u) _ (endless x0 (SimProofs3.mixed F O (rk g) R u)) t Ob); try assumption.
    - intros s i _ Hs; exact (endless_decides x0 _ s i Hs).
    - intros s l _ _; reflexivity.
  Qed.
  (** The endless response to an impulse. *)
  Lemma impulse_endless e size : NoDup (m_shocks m) -> known (m_shocks m) e ->
    exists x, (forall v, x 0 v = r0 O) /\ (forall t, decides F O g (x (SS t)) (fun _ => r0 O) (x (SS (SS t)))) /\
      (forall i, i < rn g -> x 1 (var_at g i) = rmul O size
         (Sum F O (rk g) (fun j => if chosen (m_shocks m) e j then Sum F O (rk g) (fun l => rmul O (R j l) (ru g i l)) else r0 O))) /\
      forall periods p, impulse_response F O chol m (Sim.First (SimProofs3.gy_of g) (SimProofs3.gu_of g)) e periods size = Ok p ->
      forall t v, t < periods -> v < rn g -> value F O p t v = x t v.
  Proof using S RT.
    intros D K; destruct (C37_transition_exists F O RT g (proj1 S)) as [P HP].
    set (b := fun v => Sum F O (rk g) (fun j => if chosen (m_shocks m) e j then Sum F O (rk g) (fun l => rmul O (R j l) (ru g (place F g v) l)) else r0 O)).
    exists (fun t v => match t with 0 => r0 O | SS t' => rmul O size (power F O (rn g) P t' b v) end).
    split; [reflexivity|]; split; [|split].
    - intros t i Hi; cbn [power]; change (Sum F O) with (rsum F O).
      rewrite <- (rsum_mul_l F O RT), (rsum_all_zero F O RT (rk g)) by (intros; ring).
      etransitivity; [|symmetry; etransitivity; [apply (Radd_comm RT')|apply (Radd_0_l RT')]].
      etransitivity; [|exact (HP i (fun w => rmul O size (power F O (rn g) P t b w)) Hi)]; change (Sum F O) with (rsum F O); apply rsum_ext; intros w _; ring.
    - intros i Hi; cbn [power]; unfold b; rewrite (place_at F g (proj1 S) i Hi); reflexivity.
    - intros periods p E t v Ht Hv.
      destruct (C37_powers F O chol RT g m R P b e periods size S HP D K ltac:(lia)) as (p' & E' & _ & H0 & H).
      + intros i Hi; unfold b; rewrite (place_at F g (proj1 S) i Hi); reflexivity.
      + rewrite E in E'; injection E' as <-; destruct t as [|t]; [apply H0, Hv|apply H; assumption].
  Qed.
End Endless.

(** Full statement: for every model that is solved and simulated with its first-order
    solution, whatever the shocks that are hit and the size of the impulse, the responses
    come as close to zero as one wishes, and stay there, in all long enough responses;
    whatever the initial values, all simulations with shocks that stay bounded stay within
    one distance of the steady state, and those whose shocks end come as close to it as one
    wishes.  Proved when the roots are separated. *)
Theorem C99_partial :
  forall (F : Type) (O : rops F) (finv : F -> F) (le : F -> F -> Prop) (ltb : F -> F -> bool)
    (qr : nat -> nat -> mat F -> res (mat F * mat F)) (rank : nat -> nat -> mat F -> nat) (ordqz : nat -> mat F -> mat F -> res (schur F))
    (inv : nat -> mat F -> res (mat F)) (solve : nat -> nat -> mat F -> mat F -> res (mat F)) (chol : nat -> mat F -> res (mat F))
    (lls : list (string * list Z)) (k : nat) (X : indexes) (J : mat F) (s : state F) (gy gu : nd F) (m : smodel F) (R : mat F),
  is_field O finv -> is_ordered O le -> (forall x y, ltb x y = false <-> le y x) -> archimedean F O le ->
  qr_routine F O qr -> schur_routine F O le ordqz -> finite_quotients F O ordqz -> inverse_routine F O inv -> linear_routine F O solve -> refuses_singular F O solve ->
  NoDup (map fst lls) -> in_range (map snd lls) -> index_manager lls k = Ok X ->
  let L := map snd lls in
  let n := List.length L in
  state_space F O ltb qr rank ordqz X (M2 n (List.length (timed_vars L) + k) J) = Ok s ->
  solve_first_order F O inv solve X s = Ok (gy, gu) ->
  separated F O le (eigen s) (List.length (members_of L (backward L))) ->
  List.length (m_ss m) = n -> List.length (m_shocks m) = k -> NoDup (m_shocks m) -> m_order m = dr_order X -> m_state m = members is_state (dr X) ->
  1 < n \/ k = 1 -> chol k (m_sigma m) = Ok R ->
  (forall e size close, known (m_shocks m) e -> ~ le close (r0 O) -> exists T0, forall periods p,
     impulse_response F O chol m (Sim.First gy gu) e periods size = Ok p ->
     forall t v, T0 <= t < periods -> v < n -> le (ropp O close) (value F O p t v) /\ le (value F O p t v) close) /\
  (forall init x0 u, init_dev F O m init x0 -> bounded F O le k u -> exists B, forall T p,
     simulate F O chol m (Sim.First gy gu) (Some (M2 T k u)) T (fun _ _ => r0 O) init = Ok p ->
     forall t v, t < T -> v < n -> le (ropp O B) (dev F O m p t v) /\ le (dev F O m p t v) B) /\
  (forall init x0 u stop close, init_dev F O m init x0 -> (forall t l, stop <= t -> l < k -> u t l = r0 O) -> ~ le close (r0 O) -> exists T0, forall T p,
     simulate F O chol m (Sim.First gy gu) (Some (M2 T k u)) T (fun _ _ => r0 O) init = Ok p ->
     forall t v, T0 <= t < T -> v < n -> le (ropp O close) (dev F O m p t v) /\ le (dev F O m p t v) close).
Proof.
  intros F O finv le ltb qr rank ordqz inv solve chol lls k X J s gy gu m R FT OR Hl AR Hqr Hqz Hfin Hinv Hsolve Hsing Hn Hr HX L n Hs Hg Hsep Lm Lk Dk Hmo Hms Hw Hc.
  pose proof (F_R (FT : field_theory (r0 O) (r1 O) (radd O) (rmul O) (rsub O) (ropp O) (rdiv O) finv eq)) as RT.
  destruct (C98_partial F O finv le ltb qr rank ordqz inv solve lls k X J s gy gu FT OR Hl AR Hqr Hqz Hfin Hinv Hsolve Hsing Hn Hr HX Hs Hg Hsep)
    as (g & A & P & K & E1 & E2 & _ & _ & G2 & G3).
  rewrite (index_manager_array lls k Hn Hr) in HX; injection HX as <-; fold L in Hs, Hg, Hmo, Hms.
  pose proof (solved_current F O ltb qr rank ordqz inv solve L k J _ s (gy, gu) Hr Hs Hg) as H0.
  pose proof A as (An & Ao & As & _); fold n in An.
  assert (S : solved F chol g m R).
  { split; [exact P|]; split; [|split; [rewrite An, K; exact Hw|rewrite K; exact Hc]].
    split; [rewrite Lm, An; reflexivity|]; split; [rewrite Lk, K; reflexivity|]; rewrite Hmo, Hms, (order_is L k H0), (state_positions L k H0), Ao, As; split; reflexivity. }
  fold (SimProofs3.gy_of g) in E1; fold (SimProofs3.gu_of g) in E2; subst gy gu.
  split; [|split].
  - intros e size close Ke Hcl; destruct (impulse_endless F O RT chol g m R S e size Dk Ke) as (x & _ & Hd & _ & Hx).
    destruct (G3 (fun t => x (Datatypes.S t)) Hd close Hcl) as [T0 HT].
    exists (Datatypes.S T0); intros periods p E [|t] v [Ht1 Ht2] Hv; [lia|]; rewrite (Hx periods p E) by (try rewrite An; assumption); apply HT; [lia|exact Hv].
  - intros init x0 u Hi Bu.
    assert (Bm : bounded F O le k (SimProofs3.mixed F O k R u)).
    { apply (all_bounded F O finv FT le OR); intros l Hl'; unfold SimProofs3.mixed; change (Sum F O) with (rsum F O).
      apply (bnd_sum F O finv FT le OR k (fun t j => rmul O (u t j) (R j l))); intros j Hj.
      apply (StableProofs.bnd_ext F O le (fun t => rmul O (R j l) (u t j))); [intros t; apply (Rmul_comm RT)|].
      apply (bnd_scale F O finv FT le OR), (each_bnd F O finv FT le OR k u j Bu Hj). }
    assert (Be : bounded F O le n (endless F O g x0 (SimProofs3.mixed F O k R u))).
    { apply (all_bounded F O finv FT le OR); intros v Hv; apply (bnd_unshift F O finv FT le OR).
      refine (each_bnd F O finv FT le OR n (fun t => endless F O g x0 (SimProofs3.mixed F O k R u) (Datatypes.S t)) v _ Hv).
      apply (G2 x0 (SimProofs3.mixed F O k R u) _ Bm); split; [exact (endless_decides F O chol g m R S x0 _ 0)|intros t; exact (endless_decides F O chol g m R S x0 _ (Datatypes.S t))]. }
    destruct Be as [B HB]; exists B; intros T p E t v Ht Hv.
    rewrite <- K in E; rewrite (sim_endless F O RT chol g m R S T u init x0 p Hi E t v Ht) by (rewrite An; exact Hv); rewrite K; apply HB, Hv.
  - intros init x0 u stop close Hi Hu Hcl.
    destruct (G3 (fun t => endless F O g x0 (SimProofs3.mixed F O k R u) (stop + t))) with (e := close) as [T0 HT]; [|exact Hcl|].
    + intros t; rewrite Nat.add_succ_r; intros i Hi'.
      rewrite (endless_decides F O chol g m R S x0 _ (stop + t) i Hi'); f_equal; apply (rsum_ext F O); intros l _; f_equal.
      apply (mixed_zero F O RT); intros j Hj; apply Hu; [lia|exact Hj].
    + exists (stop + T0); intros T p E t v Ht Hv.
      rewrite <- K in E; rewrite (sim_endless F O RT chol g m R S T u init x0 p Hi E t v) by (try rewrite An; tauto || exact Hv); rewrite K.
      replace t with (stop + (t - stop)) by lia; apply (HT (t - stop) v); [lia|exact Hv].
Qed.
Print Assumptions C99_partial.

(** The models of C40 and C73, with one shock of variance one. *)
Definition unit_chol (k : nat) (S : mat Qc) : res (mat Qc) := Ok S.
Definition at_rest (n : nat) (X : indexes) : smodel Qc := SModel (repeat z0 n) (dr_order X) (members is_state (dr X)) ["e"] (fun _ _ => z1).
Example C99_nonvacuous :
  exists X s gy gu m, index_manager xyz 1 = Ok X /\ state_space Qc QO qlt xyz_qr rank_all xyz_qz X (M2 3 7 (mx xyz_J)) = Ok s /\
    solve_first_order Qc QO xyz_inv qsolve X s = Ok (gy, gu) /\ separated Qc QO Qcle (eigen s) 2 /\
    List.length (m_ss m) = 3 /\ m_shocks m = ["e"] /\ NoDup (m_shocks m) /\ m_order m = dr_order X /\ m_state m = members is_state (dr X) /\
    unit_chol 1 (m_sigma m) = Ok (fun _ _ => z1) /\ known (m_shocks m) (Some (One "e")) /\
    match impulse_response Qc QO unit_chol m (Sim.First gy gu) (Some (One "e")) 4 z1 with
    | Ok p => List.length p =? 4 | Err _ => false end = true /\
    match impulse_response Qc QO unit_chol m (Sim.First gy gu) (Some (One "e")) 4 z1 with
    | Ok p => agree 4 3 (mx p) (mx [[z0; z0; z0]; [z1; q (-1) 2; q 1 2]; [q 1 2; q (-3) 8; q 1 8]; [q 1 4; q (-9) 32; q (-1) 32]]) | Err _ => false end = true.
Proof.
  destruct C98_nonvacuous as (_ & _ & _ & _ & _ & _ & _ & _ & _ & _ & _ & _ & X & s & gy & gu & EX & _ & Es & Eg & _ & Sp & _).
  assert (G : match (do X <- index_manager xyz 1; do sg <- solution QO qlt xyz_qr rank_all xyz_qz xyz_inv qsolve X (M2 3 7 (mx xyz_J));
      impulse_response Qc QO unit_chol (at_rest 3 X) (Sim.First (fst (snd sg)) (snd (snd sg))) (Some (One "e")) 4 z1) with
    | Ok p => (List.length p =? 4) && agree 4 3 (mx p) (mx [[z0; z0; z0]; [z1; q (-1) 2; q 1 2]; [q 1 2; q (-3) 8; q 1 8]; [q 1 4; q (-9) 32; q (-1) 32]]) | Err _ => false end = true)
    by (vm_compute; reflexivity).
  rewrite EX in G; cbn [bind] in G; unfold solution in G; rewrite Es in G; cbn [bind] in G; rewrite Eg in G; cbn [bind fst snd] in G.
  exists X, s, gy, gu, (at_rest 3 X); repeat (split; [assumption || reflexivity|]); split; [repeat constructor; intros []|].
  repeat (split; [assumption || reflexivity|]); split; [left; reflexivity|].
  destruct (impulse_response _ _ _ _ _ _ _ _) as [p|]; [|discriminate G]; apply andb_true_iff in G; exact G.
Qed.

(** The full statement fails: the responses of x = -2 x(-1) + e, y(+1) = 3 y + e explode. *)
Theorem C99_refuted :
  ~ (forall (qr : nat -> nat -> mat Qc -> res (mat Qc * mat Qc)) (rank : nat -> nat -> mat Qc -> nat) (ordqz : nat -> mat Qc -> mat Qc -> res (schur Qc))
       (inv : nat -> mat Qc -> res (mat Qc)) (solve : nat -> nat -> mat Qc -> mat Qc -> res (mat Qc)) (chol : nat -> mat Qc -> res (mat Qc))
       (lls : list (string * list Z)) (k : nat) (X : indexes) (J : mat Qc) (s : state Qc) (gy gu : nd Qc) (m : smodel Qc) (R : mat Qc),
     qr_routine Qc QO qr -> schur_routine Qc QO Qcle ordqz -> finite_quotients Qc QO ordqz -> inverse_routine Qc QO inv ->
     linear_routine Qc QO solve -> refuses_singular Qc QO solve ->
     NoDup (map fst lls) -> in_range (map snd lls) -> index_manager lls k = Ok X ->
     let L := map snd lls in
     let n := List.length L in
     state_space Qc QO qlt qr rank ordqz X (M2 n (List.length (timed_vars L) + k) J) = Ok s ->
     solve_first_order Qc QO inv solve X s = Ok (gy, gu) ->
     List.length (m_ss m) = n -> List.length (m_shocks m) = k -> NoDup (m_shocks m) -> m_order m = dr_order X -> m_state m = members is_state (dr X) ->
     1 < n \/ k = 1 -> chol k (m_sigma m) = Ok R ->
     forall e size close, known (m_shocks m) e -> ~ Qcle close (Q2Qc 0) -> exists T0, forall periods p,
       impulse_response Qc QO chol m (Sim.First gy gu) e periods size = Ok p ->
       forall t v, T0 <= t < periods -> v < n -> Qcle (Qcopp close) (value Qc QO p t v) /\ Qcle (value Qc QO p t v) close).
Proof.
  intros H.
  assert (E : match (do X <- index_manager bad 1; solution QO qlt (qr_with []) rank_all bad_qz bad_inv qsolve X (M2 2 5 (mx bad_J))) with
    Ok (s, (gy, gu)) => shown gy [[q (-2) 1]; [z0]] && shown gu [[z1]; [q (-1) 3]] | Err _ => false end = true) by (vm_compute; reflexivity).
  destruct (index_manager bad 1) as [X|] eqn:EX; [|discriminate E]; cbn [bind] in E; unfold solution in E.
  destruct (state_space _ _ _ _ _ _ X _) as [s|] eqn:Es; [|discriminate E]; cbn [bind] in E.
  destruct (solve_first_order _ _ _ _ X s) as [[gy gu]|] eqn:Eg; [|discriminate E]; cbn [bind] in E.
  assert (Hn : NoDup (map fst bad)) by (repeat constructor; cbn [In map fst]; intuition discriminate).
  assert (Hr : in_range (map snd bad)) by (repeat constructor; try discriminate; try lia).
  assert (Hfin : finite_quotients Qc QO bad_qz) by (apply quotients_ok; vm_compute; reflexivity).
  destruct (returned_rule Qc QO Qcinv Qcle qlt (qr_with []) rank_all bad_qz bad_inv qsolve bad 1 X (mx bad_J) s gy gu
    Q_field Q_ordered qlt_le (qr_with_ok _) (qz_with_ok _) (inv_with_ok _) qsolve_ok Hn Hr EX Es Eg) as (g & A & P & K & E1 & E2 & _ & H0).
  set (m := at_rest 2 X).
  assert (D : NoDup (m_shocks m)) by (repeat constructor; intros []).
  assert (Hhalf : ~ Qcle (q 1 2) (Q2Qc 0)) by (apply qlt_true; vm_compute; reflexivity).
  destruct (H _ _ _ _ _ unit_chol _ _ _ _ _ _ _ m (fun _ _ => z1) (qr_with_ok _) (qz_with_ok _) Hfin (inv_with_ok _) qsolve_ok qsolve_refuses Hn Hr EX Es Eg
    eq_refl eq_refl D eq_refl eq_refl (or_introl (le_n 2)) eq_refl None z1 (q 1 2) I Hhalf) as [T0 HT]; clear H.
  rewrite (index_manager_array bad 1 Hn Hr) in EX; injection EX as EX.
  pose proof A as (An & Ao & As & Ar).
  assert (S : solved Qc unit_chol g m (fun _ _ => z1)).
  { split; [exact P|]; split; [|split; [left; rewrite An; cbn; lia|rewrite K; reflexivity]].
    split; [rewrite An; reflexivity|]; split; [rewrite K; reflexivity|]; cbn [m at_rest m_order m_state]; rewrite <- EX.
    change (array [[(-1)%Z; 0%Z]; [0%Z; 1%Z]] 1) with (array (map snd bad) 1).
    rewrite (order_is (map snd bad) 1 H0), (state_positions (map snd bad) 1 H0), Ao, As; split; reflexivity. }
  pose proof (F_R (Q_field : field_theory (r0 QO) (r1 QO) (radd QO) (rmul QO) (rsub QO) (ropp QO) (rdiv QO) Qcinv eq)) as RT.
  fold (SimProofs3.gy_of g) in E1; fold (SimProofs3.gu_of g) in E2.
  destruct (impulse_endless Qc QO RT unit_chol g m _ S None z1 D I) as (x & _ & Hd & H1 & Hx).
  destruct (C37_transition_exists Qc QO RT g P) as [M HM].
  assert (G : ry g 0 0 = q (-2) 1 /\ ru g 0 0 = z1).
  { unfold SimProofs3.gy_of in E1; unfold SimProofs3.gu_of in E2; rewrite An, Ar in E1; rewrite An, K in E2; cbn in E1, E2; subst gy gu; cbn [shown] in E.
    apply andb_true_iff in E as [E E']; apply andb_true_iff in E as [_ E]; apply andb_true_iff in E' as [_ E'].
    pose proof (agree_eq _ _ _ _ E 0 0 ltac:(cbn; lia) ltac:(lia)) as G; pose proof (agree_eq _ _ _ _ E' 0 0 ltac:(cbn; lia) ltac:(lia)) as G'.
    split; [exact G|exact G']. }
  destruct G as [Gy Gu]; cbn in An, Ao, As, Ar.
  assert (X1 : x 1 0 = z1).
  { specialize (H1 0 ltac:(lia)); unfold var_at in H1; rewrite Ao, K in H1; cbn in H1; rewrite H1, Gu; apply Qc_is_canon; reflexivity. }
  assert (XS : forall t, x (Datatypes.S (Datatypes.S t)) 0 = (q (-2) 1 * x (Datatypes.S t) 0%nat)%Qc).
  { intros t; pose proof (Hd t 0 ltac:(lia)) as Dt; unfold var_at, state_at in Dt; rewrite Ao, As, Ar, K in Dt; cbn in Dt; rewrite Gy in Dt; rewrite Dt; ring. }
  assert (Big : forall t, Qcle 1%Qc (x (Datatypes.S t) 0%nat * x (Datatypes.S t) 0%nat)%Qc).
  { induction t as [|t IH]; [rewrite X1; apply qlt_le; vm_compute; reflexivity|]; rewrite XS.
    apply (Qcle_trans _ _ _ IH), (ge0 Qc QO Qcinv Q_field Qcle Q_ordered).
    set (a := x (Datatypes.S t) 0%nat).
    replace (rsub QO (q (-2) 1 * a * (q (-2) 1 * a))%Qc (a * a)%Qc) with (rmul QO (q 3 1) (rmul QO a a)).
    - apply (o_mul _ _ Q_ordered); [apply qlt_le; vm_compute; reflexivity|apply (sq_nonneg Qc QO Qcinv Q_field Qcle Q_ordered)].
    - change (q 3 1 * (a * a) = q (-2) 1 * a * (q (-2) 1 * a) - a * a)%Qc.
      replace (q 3 1) with (q (-2) 1 * q (-2) 1 - 1)%Qc by (apply Qc_is_canon; reflexivity); ring. }
  destruct (C37_powers Qc QO unit_chol RT g m _ M (fun v => x 1 v) None (T0 + 2) z1 S HM D I ltac:(lia)) as (p & Ep & _).
  { intros i Hi; rewrite (H1 i Hi); unfold z1; cbn [rmul QO]; ring. }
  rewrite E1, E2 in HT.
  destruct (HT (T0 + 2) p Ep (Datatypes.S T0) 0 ltac:(lia) ltac:(cbn; lia)) as [B1 B2].
  rewrite (Hx (T0 + 2) p Ep) in B1, B2 by lia.
  set (a := x (Datatypes.S T0) 0) in *; specialize (Big T0); fold a in Big.
  assert (Sm : Qcle (a * a)%Qc (q 1 4)).
  { apply (ge0 Qc QO Qcinv Q_field Qcle Q_ordered).
    replace (rsub QO (q 1 4) (a * a)%Qc) with (rmul QO (rsub QO (q 1 2) a) (rsub QO a (Qcopp (q 1 2)))).
    - apply (o_mul _ _ Q_ordered); apply (sub0 Qc QO Qcinv Q_field Qcle Q_ordered); assumption.
    - change ((q 1 2 - a) * (a - - q 1 2) = q 1 4 - a * a)%Qc; replace (q 1 4) with (q 1 2 * q 1 2)%Qc by (apply Qc_is_canon; reflexivity); ring. }
  assert (Bad : Qcle 1%Qc (q 1 4)) by exact (Qcle_trans _ _ _ Big Sm).
  revert Bad; apply qlt_true; vm_compute; reflexivity.
Qed.
Print Assumptions C99_refuted.
