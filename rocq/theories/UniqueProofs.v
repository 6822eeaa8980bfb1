(** The paths that solve the equations of a model to first order are those that solve the
    linearised model. *)
From Verif Require Import Base Syntax Eval EvalSpec FactorySpec Nd SimSpec IndexingSpec IndexingProofs IndexingProofs2 DynSpec DynProofs DynProofs2 FirstOrder FirstOrderProofs NdProofs OrderProofs FirstOrderSpec SecondOrderSpec CalcSpec CalcProofs CalcProofs2
  LinearizeSpec AccuracySpec AccuracyProofs AccuracyProofs2 UniqueSpec StableSpec PiecewiseSimExample.
From Coq Require Import Ring Field.

Section Linear.
  Variable F : Type.
  Variable O : rops F.
  Variable inv : F -> F.
  Variable FT : is_field O inv.
  Variable le : F -> F -> Prop.
  Hypothesis OR : is_ordered O le.
  Hypothesis dec : forall x y : F, x = y \/ x <> y.
  Let FT' : field_theory (r0 O) (r1 O) (radd O) (rmul O) (rsub O) (ropp O) (rdiv O) inv eq := FT.
  Add Field Funique : FT'.
  Let RT : is_ring O := F_R FT'.
  Variable P : ops F.
  Variable endog stoch : list string.
  Variable params : list (string * F).
  Variable L : list (list Z).
  Variable ss : list F.
  Hypothesis Nd : NoDup (endog ++ stoch).
  Notation z := (r0 O).
  Notation k := (List.length stoch).
  Notation w := (List.length (timed_vars L) + List.length stoch).
  Notation arg := (argument F L).
  Notation rsum := (Nd.rsum F O).
  Notation x0 := (rest_point F O stoch (timed_vars L) ss).

  Lemma equation_value_unique lag now next u e v v' :
    equation_value F P endog stoch params lag now next u e v -> equation_value F P endog stoch params lag now next u e v' -> v = v'.
  Proof using Nd.
    apply value_unique.
    - intros x a b; destruct (lookup x params) as [c|]; [congruence|].
      intros [(i & Hi & ->)|(s & Hs & ->)] [(j & Hj & ->)|(q & Hq & ->)].
      + f_equal; apply (proj1 (NoDup_nth_error endog)); [exact (NoDup_app_left _ _ Nd)|apply nth_error_Some; congruence|congruence].
      + exfalso; exact (NoDup_app_not _ _ x Nd (nth_error_In _ _ Hi) (nth_error_In _ _ Hq)).
      + exfalso; exact (NoDup_app_not _ _ x Nd (nth_error_In _ _ Hj) (nth_error_In _ _ Hs)).
      + f_equal; apply (proj1 (NoDup_nth_error stoch)); [exact (NoDup_app_r _ _ Nd)|apply nth_error_Some; congruence|congruence].
    - intros x q a b (i & Hi & ->) (j & Hj & ->); assert (i = j) as ->; [|reflexivity].
      apply (proj1 (NoDup_nth_error endog)); [exact (NoDup_app_left _ _ Nd)|apply nth_error_Some; congruence|congruence].
  Qed.

  Variable exprs : list (ast F).
  Variable J : nat -> nat -> F.
  Variable H : nat -> nat -> nat -> F.
  Hypothesis EX : forall (y : F -> list F) (b q : nat -> F),
        (forall t, List.length (y t) = w) ->
        (forall c, c < w -> jet2 F O le (fun t => nth c (y t) z) (nth c x0 z) (b c) (q c)) ->
      forall i e, nth_error exprs i = Some e ->
        exists r v, near F O le (fun t => residual F P endog stoch params (timed_vars L) e (y t) (r t)) /\
          steady_residual F O P endog stoch params e ss v /\ (forall v', steady_residual F O P endog stoch params e ss v' -> v = v') /\
          jet2 F O le r v (rsum w (fun c => rmul O (J i c) (b c)))
            (radd O (rsum w (fun c => rmul O (J i c) (q c)))
               (rdiv O (rsum w (fun c => rsum w (fun d => rmul O (H i c d) (rmul O (b c) (b d))))) (twice_one O))).
  Hypothesis SS : Forall (fun e => steady_residual F O P endog stoch params e ss z) exprs.
  Variable g : rule F.
  Hypothesis Hn : rn g = List.length L.
  Hypothesis Hk : rk g = k.

  Lemma slope i x1 x2 x3 x4 : linear_equation F O L k J x1 x2 x3 x4 i <-> rsum w (fun c => rmul O (J i c) (arg x1 x2 x3 x4 c)) = z.
  Proof using FT.
    clear g Hn Hk; unfold linear_equation; change (Sum F O) with rsum.
    rewrite (rsum_split F O RT (List.length (timed_vars L)) k).
    match goal with |- ?a = _ <-> ?b = _ => replace b with a; [reflexivity|] end.
    f_equal; apply rsum_ext; intros c Hc; unfold argument.
    - destruct (Nat.ltb_spec c (List.length (timed_vars L))); [reflexivity|lia].
    - destruct (Nat.ltb_spec (Nat.add (List.length (timed_vars L)) c) (List.length (timed_vars L))); [lia|]; replace (Nat.sub (Nat.add (List.length (timed_vars L)) c) (List.length (timed_vars L))) with c by lia; reflexivity.
  Qed.

  Lemma holds_linear i e lag now next u : nth_error exprs i = Some e ->
    (holds_to_first_order F O le P endog stoch params ss lag now next u e <-> linear_equation F O L k J lag now next u i).
  Proof using FT OR dec Nd EX SS Hn Hk.
    intros He.
    destruct (residuals F O inv FT le OR P endog stoch params L ss exprs J H EX SS g Hn Hk 1 (fun _ => r1 O) lag u
      (fun t v => rmul O t (now v)) (fun _ t v => rmul O t (next v)) now (fun _ => z) (fun _ => next) (fun _ _ => z)) with (i := i) (e := e) as (r & Hr & Jr);
      [intros v _; apply (jet2_line F O inv FT le OR)|intros q v _ _; apply (jet2_line F O inv FT le OR)|exact He|].
    specialize (Hr 0 Nat.lt_0_1); apply (jet2_jet1 F O inv FT le OR) in Jr; destruct Jr as (s & Vs & Es); cbn [Nd.rsum] in Es.
    rewrite slope; set (a := rsum w (fun c => rmul O (J i c) (arg lag now next u c))) in *.
    assert (Es' : near F O le (fun t => r 0 t = radd O (rmul O a t) (rmul O (s t) t))).
    { revert Es; apply near_mono; intros t E; transitivity (radd O z (rmul O (r1 O) (r 0 t))); [ring|rewrite E; ring]. }
    split.
    - intros (r' & Hr' & s' & Vs' & Es''); destruct (dec a z) as [E|E]; [exact E|exfalso].
      apply (slope_unique F O inv FT le OR z z a z s s' Vs Vs'); [|exact E].
      pose proof (near_and F O inv FT le OR _ _ Hr (near_and F O inv FT le OR _ _ Hr' (near_and F O inv FT le OR _ _ Es' Es''))) as N.
      revert N; apply near_mono; intros t (A & B & C & D); pose proof (equation_value_unique _ _ _ _ _ _ _ A B) as E'.
      rewrite C, D in E'; transitivity (radd O (rmul O a t) (rmul O (s t) t)); [ring|]; rewrite E'; ring.
    - intros Ea; exists (r 0); split; [exact Hr|]; exists s; split; [exact Vs|]; revert Es'; apply near_mono; intros t E; rewrite E, Ea; ring.
  Qed.

  Lemma path_linear lag u y : List.length exprs = List.length L ->
    (path_holds F O le P endog stoch params exprs ss lag u y <-> path_solves F O L k J lag u y).
  Proof using FT OR dec Nd EX SS Hn Hk.
    intros Lx; unfold path_holds, path_solves; split.
    - intros Hf; assert (G : forall i, i < List.length L -> exists e, nth_error exprs i = Some e /\ In e exprs).
      { intros i Hi; rewrite <- Lx in Hi; apply nth_error_Some in Hi; destruct (nth_error exprs i) as [e|] eqn:E; [|congruence]; exists e; split; [reflexivity|exact (nth_error_In _ _ E)]. }
      split; [intros i Hi|intros t i Hi]; destruct (G i Hi) as (e & He & Ie); destruct (proj1 (Forall_forall _ _) Hf e Ie) as [A B];
        [apply (holds_linear i e _ _ _ _ He), A|apply (holds_linear i e _ _ _ _ He), B].
    - intros [A B]; apply Forall_forall; intros e He; apply In_nth_error in He as (i & He).
      assert (Hi : i < List.length L) by (rewrite <- Lx; apply nth_error_Some; congruence).
      split; [apply (holds_linear i e _ _ _ _ He), A, Hi|intros t; apply (holds_linear i e _ _ _ _ He), B, Hi].
  Qed.
End Linear.
