(** The rule of a model that is solved from its equations: paths and covariances, when the
    roots are separated. *)
From Verif Require Import Base Syntax Eval EvalSpec FactorySpec Factory Indexing IndexingSpec IndexingProofs IndexingProofs2 DynFunc DynSpec DynProofs DynProofs2 PropDyn Vars ExprList
  ModelState ModelStateSpec ModelStateProofs ModelStateProofs2 Nd Mat NdProofs SimSpec OrderProofs
  CalcSpec CalcProofs Linearize LinearizeSpec LinearizeProofs Steady SteadyValues SteadyValuesSpec PropSteadyValues
  FirstOrder FirstOrderSpec FirstOrderProofs FirstOrderProofs4 FirstOrderProofs5 FirstOrderCurrent AccuracySpec PropAccuracy SylvesterSpec SecondOrder Pipeline PipelineSpec PipelineProofs PathSimProofs
  MomentsSpec StableSpec StableProofs StableProofs4 StableProofs5.
From Coq Require Import Permutation ZArith.
Local Open Scope nat_scope.
Local Open Scope list_scope.

Lemma squeeze_entries {F} r c (f h : nat -> nat -> F) : squeeze F (M2 r c f) = squeeze F (M2 r c h) -> forall i j, i < r -> j < c -> f i j = h i j.
Proof.
  intros E i j Hi Hj; unfold squeeze in E.
  destruct (Nat.eqb_spec r 1) as [->|Nr]; [replace i with 0 by lia|]; (destruct (Nat.eqb_spec c 1) as [->|Nc]; [replace j with 0 by lia|]); injection E as E.
  - exact E.
  - rewrite E; reflexivity.
  - exact (f_equal (fun k => k i) E).
  - rewrite E; reflexivity.
Qed.

(** The equations determine which variables have a lag. *)
Lemma same_backward F ns (es : list (ast F)) L L' : occurs_with ns es L -> occurs_with ns es L' -> members_of L (backward L) = members_of L' (backward L').
Proof.
  intros [L1 A1] [L2 A2]; unfold members_of; rewrite L1, L2; apply filter_ext_in; intros i Hi; apply in_seq in Hi; unfold backward.
  apply eq_true_iff_eq; rewrite A1, A2 by lia; reflexivity.
Qed.

(** Two rules that hold the same arrays decide alike. *)
Section Alike.
  Variable F : Type.
  Variable O : rops F.
  Variables g h : rule F.
  Hypothesis En : rn g = rn h.
  Hypothesis Es : rs g = rs h.
  Hypothesis Ek : rk g = rk h.
  Hypothesis Eo : rorder g = rorder h.
  Hypothesis Et : rstate g = rstate h.
  Hypothesis Ey : squeeze F (M2 (rn g) (rs g) (ry g)) = squeeze F (M2 (rn h) (rs h) (ry h)).
  Hypothesis Eu : squeeze F (M2 (rn g) (rk g) (ru g)) = squeeze F (M2 (rn h) (rk h) (ru h)).
  Lemma decides_alike b u a : decides F O g b u a -> decides F O h b u a.
  Proof using En Es Ek Eo Et Ey Eu.
    intros D i Hi; rewrite <- En in Hi; specialize (D i Hi); unfold var_at, state_at in *; rewrite <- Eo, <- Et, D, <- Es, <- Ek.
    rewrite <- En, <- Es in Ey; rewrite <- En, <- Ek in Eu.
    f_equal; apply (rsum_ext F O); intros j Hj; f_equal; [exact (squeeze_entries _ _ _ _ Ey i j Hi Hj)|exact (squeeze_entries _ _ _ _ Eu i j Hi Hj)].
  Qed.
End Alike.

Section Settled.
  Variable F : Type.
  Variable O : rops F.
  Variable P : ops F.
  Variable ltb eqb : F -> F -> bool.
  Variable nan : F.
  Variable minimize : solver -> (list F -> res F) -> list F -> res (list F).
  Variable grad : (list F -> res F) -> list F -> res (list F).
  Variable jacobian : (list F -> res (list F)) -> list F -> res (list (list F)).
  Variable qr : nat -> nat -> mat F -> res (mat F * mat F).
  Variable rank : nat -> nat -> mat F -> nat.
  Variable ordqz : nat -> mat F -> mat F -> res (schur F).
  Variable inv : nat -> mat F -> res (mat F).
  Variable qz : nat -> mat F -> mat F -> res (mat F * mat F * mat F * mat F).
  Variable solve : nat -> nat -> mat F -> mat F -> res (mat F).
  Notation space := (whole_space F O P ltb nan minimize grad qr rank ordqz).
  Notation solver_ := (whole_solver F O P eqb nan minimize grad jacobian inv qz solve).
  Notation fresh := (ModelStateProofs.fresh F (space_of F) space).
  Variable finv : F -> F.
  Variable le : F -> F -> Prop.
  Variable fns : string -> smooth_fun F.
  Variable pows : F -> smooth_fun F.
  Hypothesis FT : is_field O finv.
  Hypothesis OR : is_ordered O le.
  Hypothesis Hl : forall x y, ltb x y = false <-> le y x.
  Hypothesis HI : interprets F O le P fns pows.
  Hypothesis Hqr : qr_routine F O qr.
  Hypothesis Hqz : schur_routine F O le ordqz.
  Hypothesis Hinv : inverse_routine F O inv.
  Hypothesis Hs : linear_routine F O solve.
  Hypothesis AR : archimedean F O le.
  Hypothesis Hfin : finite_quotients F O ordqz.
  Hypothesis Hsing : refuses_singular F O solve.

  Lemma solved_settles ns is (sv : list (svar F)) es sc x st dy sp gy gu L g : fresh ns is sv es sc x st dy sp ->
    solver_ None is st dy sp = Ok (First gy gu) ->
    readable ns (map sv_name sv) es sc -> List.length es = List.length ns ->
    (forall l, signature F ns es l -> differentiates F O le P ns (map sv_name sv) es sc grad jacobian l) ->
    List.length (sp_ss sp) = List.length ns -> smooth_at F O ns (map sv_name sv) es sc fns pows (sp_ss sp) ->
    occurs_with ns es L -> about F L g -> proper g -> rk g = List.length (map sv_name sv) ->
    gy = squeeze F (M2 (rn g) (rs g) (ry g)) -> gu = squeeze F (M2 (rn g) (rk g) (ru g)) ->
    separated F O le (eigen (sp_state sp)) (rs g) ->
    (forall lag u y, bounded F O le (rk g) u -> path_shocked F O g lag u y -> bounded F O le (rn g) y) /\
    (forall y, (forall t, decides F O g (y t) (fun _ => r0 O) (y (S t))) -> vanishes F O le (rn g) y) /\
    stable F O g /\ no_unit_root F O g.
  Proof using FT OR Hl HI Hqr Hqz Hinv Hs AR Hfin Hsing.
    intros H Es (Nd & Nc & R & W & Dj) Lx Hd Ls Sm Oc Ab Pr Rk Ey Eu Sep.
    destruct (fresh_built F O P ltb nan minimize grad qr rank ordqz _ _ _ _ _ _ _ _ _ H) as (B & _ & _ & _ & J & S).
    cbn [whole_solver] in Es; apply bind_ok in Es as ([gy' gu'] & Eg & Es); cbn [fst snd] in Es; injection Es as E1 E2; subst gy' gu'.
    destruct (expansion F O finv FT le OR P fns pows HI ns (map sv_name sv) es sc Nd Nc R W Dj (sp_ss sp) Ls Sm grad jacobian Hd)
      as (m' & lls & J' & H' & Em' & El & Ei & Sg & EJ & _ & _ & EX).
    rewrite B in Em'; injection Em' as <-; rewrite EJ in J; injection J as J.
    pose proof (Ne ns (map sv_name sv) Nd) as Nn.
    destruct (lls_offsets F ns es lls Nn R El) as (Of & Ir & Nk); pose proof (proj1 Of) as LL.
    rewrite Ei in S, Eg; rewrite <- J in S; rewrite Lx, <- LL in S.
    set (L' := map snd lls) in *; set (k := List.length (map sv_name sv)) in *.
    pose proof (solved_current F O ltb qr rank ordqz inv solve L' _ J' _ _ _ Ir S Eg) as H0.
    destruct (same_places F ns es L' L g k Of Oc Ab H0) as [Po Ps].
    destruct (solved_inv F O finv FT le ltb qr rank ordqz inv solve Hqr Hqz L' k H0 J' _ _ S Eg) as (Hb & _).
    assert (Rs : rs g = List.length (members_of L' (backward L'))).
    { destruct Pr as (_ & Lst & _); rewrite <- Lst, <- Ps, (state_positions L' k H0), seq_length; reflexivity. }
    rewrite Rs in Sep; rewrite (nb_is L' k H0) in Hb, Sep.
    destruct (first_order_stable F O finv FT le OR ltb Hl qr rank ordqz inv solve Hqr Hqz Hinv Hs Hsing Hfin AR L' k H0 Hb J' _ gy gu S Eg Sep)
      as (h & A & Ph & K & Hy & Hu & _ & G2 & G3 & G4).
    pose proof A as (An & Ao & As & Ar).
    assert (Qn : rn g = rn h) by (rewrite An; destruct Ab as (-> & _); rewrite (proj1 Oc), <- LL; reflexivity).
    assert (Qs : rs g = rs h) by (rewrite Ar; exact Rs).
    assert (Qk : rk g = rk h) by congruence.
    assert (Qo : rorder g = rorder h) by (rewrite <- Po, (order_is L' k H0), Ao; reflexivity).
    assert (Qt : rstate g = rstate h) by (rewrite <- Ps, (state_positions L' k H0), As; reflexivity).
    rewrite Ey in Hy; rewrite Eu in Hu.
    assert (De : forall b u a, decides F O g b u a -> decides F O h b u a) by (intros b u a; apply decides_alike; assumption).
    assert (Ln : List.length L' = rn g) by congruence; rewrite Ln in G2, G3, G4; rewrite <- K, <- Qk in G2.
    assert (V : forall y, (forall t, decides F O g (y t) (fun _ => r0 O) (y (Datatypes.S t))) ->
      bounded F O le (rn g) y /\ forall v, v < rn g -> bnd F O le (fun t => rmul O (number O t) (y (Datatypes.S t) v))) by (intros y D; apply G4; intros t; apply De, D).
    pose proof (eq_dec0 F O le OR ltb Hl) as dec.
    split; [intros lag u y Bu [D0 D]; apply (G2 lag u y Bu); split; [apply De, D0|intros t; apply De, D]|].
    split; [intros y D; apply G3; intros t; apply De, D|].
    split; [exact (is_stable F O finv FT le OR dec AR g Pr V)|exact (no_unit F O finv FT le OR dec AR g Pr V)].
  Qed.
End Settled.
