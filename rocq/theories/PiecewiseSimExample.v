(** The model of LinearExample.v with a constant taken from its third equation: the regimes of the
    examples of C94. *)
From Verif Require Import Base Syntax Eval EvalSpec FactorySpec IndexingSpec DynFunc DynSpec DynProofs Nd NdInst NdProofs SimSpec OrderProofs PropDyn
  CalcSpec CalcProofs CalcProofs2 CalcProofs3 Linearize LinearizeSpec LinearizeProofs PropFirst PropSecond LinearExample PiecewiseSimSpec.
From Coq Require Import ZArith QArith Qcanon.
Local Open Scope string_scope.
Local Open Scope list_scope.
Local Open Scope nat_scope.

Lemma value_unique {V} (P : ops V) (rho : string -> V -> Prop) (rho_t : string -> Z -> V -> Prop) e v v' :
  (forall x a b, rho x a -> rho x b -> a = b) -> (forall x k a b, rho_t x k a -> rho_t x k b -> a = b) ->
  EvalSpec.value V P rho rho_t e v -> EvalSpec.value V P rho rho_t e v' -> v = v'.
Proof.
  intros R1 R2; revert v v'; induction e; intros v v' H H'; inversion H; inversion H'; subst; try congruence; try (eapply R1; eassumption); try (eapply R2; eassumption).
  all: repeat match goal with
    | IH : forall v v', EvalSpec.value _ _ _ _ ?e v -> _, H1 : EvalSpec.value _ _ _ _ ?e ?a, H2 : EvalSpec.value _ _ _ _ ?e ?b |- _ =>
        assert (a = b) by exact (IH a b H1 H2); subst; clear H2
    end; try congruence.
  match goal with H1 : In (?f, ?g) _, H2 : In (?f, ?g') _ |- _ => assert (g = g') by (cbn [language_functions In] in H1, H2; intuition congruence); subst end; congruence.
Qed.
Lemma residual_unique e y v v' : residual Qc q_ops lendog lstoch lparams lsig e y v -> residual Qc q_ops lendog lstoch lparams lsig e y v' -> v = v'.
Proof.
  unfold residual; apply value_unique; [intros x a b|intros x k a b].
  - unfold plain; destruct (lookup x lparams); [congruence|].
    assert (Nd : forall i s, nth_error lendog i = Some x -> nth_error lstoch s = Some x -> False).
    { intros [|[|[|[|i]]]] [|[|[|s]]] Hi Hs; try discriminate Hi; try discriminate Hs; cbn in Hi, Hs; rewrite <- Hi in Hs; discriminate Hs. }
    intros [(i & j & H1 & H2 & H3)|(s & H1 & H2)] [(i' & j' & H1' & H2' & H3')|(s' & H1' & H2')]; [|exfalso; eapply Nd; eassumption|exfalso; eapply Nd; eassumption|].
    + assert (i = i') by (apply (NoDup_nth_error lendog); [repeat constructor; cbn; intuition discriminate|apply nth_error_Some; congruence|congruence]); subst.
      assert (j = j') by (apply (NoDup_nth_error lsig); [repeat constructor; cbn; intuition discriminate|apply nth_error_Some; congruence|congruence]); subst; congruence.
    + assert (s = s') by (apply (NoDup_nth_error lstoch); [repeat constructor; cbn; intuition discriminate|apply nth_error_Some; congruence|congruence]); subst; congruence.
  - intros (i & j & H1 & H2 & H3) (i' & j' & H1' & H2' & H3').
    assert (i = i') by (apply (NoDup_nth_error lendog); [repeat constructor; cbn; intuition discriminate|apply nth_error_Some; congruence|congruence]); subst.
    assert (j = j') by (apply (NoDup_nth_error lsig); [repeat constructor; cbn; intuition discriminate|apply nth_error_Some; congruence|congruence]); subst; congruence.
Qed.

(** z = x + y + x y + c + w *)
Definition shifted (w : Qc) : list (ast Qc) := [leq1; leq2; Bin BSub leq3 (Num w)].

Lemma shifted_readable w : readable lendog lstoch (shifted w) lparams.
Proof.
  split; [repeat constructor; cbn; intuition discriminate|].
  split; [intros x y Hx Hy; cbn [names app keys map fst In lendog lstoch lparams] in Hx, Hy; repeat (destruct Hx as [<-|Hx]); try contradiction; repeat (destruct Hy as [<-|Hy]); try contradiction; split; discriminate|].
  split; [|split].
  - split.
    + intros x Hx; exists 0%Z; cbn [lendog In] in Hx; destruct Hx as [<-|[<-|[<-|[]]]].
      * exists leq1; split; [left; reflexivity|apply P_binl; constructor].
      * exists (Bin BSub leq3 (Num w)); split; [right; right; left; reflexivity|apply P_binl, P_binr, P_binl, P_binr; constructor].
      * exists (Bin BSub leq3 (Num w)); split; [right; right; left; reflexivity|apply P_binl, P_binl; constructor].
    + intros x k e Hx He Hp; cbn [shifted In] in He; destruct He as [<-|[<-|[<-|[]]]]; unfold leq1, leq2, leq3 in Hp; invert_tree; lia.
  - repeat (apply Forall_cons || apply Forall_nil).
    all: split; [split; [exact I|split; [cbn; tauto|cbn [functions leq1 leq2 leq3]; repeat apply conj; exact I]]|].
    all: split; [split; intros|split; intros x k H]; unfold leq1, leq2, leq3 in *; invert_tree; try (cbn; tauto); auto.
  - intros x [<-|[<-|[<-|[]]]]; reflexivity.
Qed.
Lemma shifted_occurs w i k : occurs_at Qc lendog (shifted w) i k <-> occurs_at Qc lendog lmodel i k.
Proof.
  split; intros (x & e & Hi & He & Ha); exists x.
  - cbn [shifted In] in He; destruct He as [<-|[<-|[<-|[]]]].
    + exists leq1; split; [exact Hi|]; split; [left; reflexivity|exact Ha].
    + exists leq2; split; [exact Hi|]; split; [right; left; reflexivity|exact Ha].
    + exists leq3; split; [exact Hi|]; split; [right; right; left; reflexivity|].
      inversion Ha; subst; try assumption; match goal with H : at_period _ _ _ (Num _) |- _ => inversion H end.
  - cbn [lmodel In] in He; destruct He as [<-|[<-|[<-|[]]]].
    + exists leq1; split; [exact Hi|]; split; [left; reflexivity|exact Ha].
    + exists leq2; split; [exact Hi|]; split; [right; left; reflexivity|exact Ha].
    + exists (Bin BSub leq3 (Num w)); split; [exact Hi|]; split; [right; right; left; reflexivity|apply P_binl; exact Ha].
Qed.
Lemma shifted_signature w l : signature Qc lendog (shifted w) l -> l = lsig.
Proof.
  intros [H1 H2]; apply lmodel_signature; split; [|exact H2].
  intros i k; rewrite H1; apply shifted_occurs.
Qed.

Local Open Scope Qc_scope.
Definition shift_of (w : Qc) (i : nat) : Qc := match i with 2%nat => w | _ => 0 end.
Lemma shifted_nth w i e : nth_error (shifted w) i = Some e ->
  (i < 3)%nat /\ exists e0, nth_error lmodel i = Some e0 /\ ((e = e0 /\ shift_of w i = 0) \/ (e = Bin BSub e0 (Num w) /\ shift_of w i = w)).
Proof.
  intros H; destruct i as [|[|[|i]]]; [..|destruct i; discriminate H]; injection H as <-; (split; [lia|]); eexists; (split; [reflexivity|]); auto.
Qed.
Lemma shifted_residual_is w i e y : nth_error (shifted w) i = Some e -> List.length y = 8%nat ->
  residual Qc q_ops lendog lstoch lparams lsig e y (l_residual i y - shift_of w i).
Proof.
  intros He Hy; apply shifted_nth in He as (Hi & e0 & He & D).
  pose proof (l_residual_is i e0 y He Hy) as R; destruct D as [[-> ->]|[-> ->]].
  - replace (l_residual i y - 0) with (l_residual i y) by ring; exact R.
  - unfold residual in *; apply (V_bin _ _ _ _ BSub) with (l_residual i y) w; [exact R|constructor|reflexivity].
Qed.
Lemma shifted_slope w i y j : (i < 3)%nat -> List.length y = 8%nat -> (j < 8)%nat ->
  exists C, forall h, l_residual i (bump Qc QO y j h) - shift_of w i = l_residual i y - shift_of w i + l_slope i y j * h + C * h * h.
Proof. intros Hi Hy Hj; destruct (l_residual_slope i y j Hi Hy Hj) as (C & HC); exists C; intros h; rewrite HC; ring. Qed.
Lemma shifted_differentiates w l : signature Qc lendog (shifted w) l -> differentiates Qc QO Qcle q_ops lendog lstoch (shifted w) lparams qgrad qjacobian l.
Proof.
  intros Sg; rewrite (shifted_signature w l Sg); unfold differentiates; change (List.length lsig + List.length lstoch)%nat with 8%nat; cbn zeta; intros e f He Hf.
  apply In_nth_error in He as (i & Hi); pose proof (proj1 (shifted_nth w i e Hi)) as Li.
  assert (Ef : forall y, List.length y = 8%nat -> f y = Ok (l_residual i y - shift_of w i)) by (intros y Hy; apply (Hf y Hy), shifted_residual_is; assumption).
  split.
  - apply (qgrad_ok 8 f (fun y => l_residual i y - shift_of w i) (l_slope i) Ef); intros; apply shifted_slope; assumption.
  - apply (qjacobian_ok 8 f (fun y => l_residual i y - shift_of w i) (l_slope i) (l_curve i) Ef); intros; [apply shifted_slope|apply l_slope_curve]; assumption.
Qed.
Lemma shifted_smooth w y : List.length y = 3%nat -> smooth_at Qc QO lendog lstoch (shifted w) lparams no_function squares y.
Proof.
  intros Hy; apply Forall_forall; intros e He; apply In_nth_error in He as (i & Hi).
  apply shifted_nth in Hi as (Hl & e0 & Hi & [[-> _]|[-> _]]); eexists; [apply (s_residual_tame i e0 y Hi Hy)|].
  apply (S_sub Qc QO); [apply (s_residual_tame i e0 y Hi Hy)|constructor].
Qed.
(** The derivatives do not depend on z. *)
Lemma shifted_partial w l e c d z z' : signature Qc lendog (shifted w) l -> In e (shifted w) -> (c < List.length l + List.length lstoch)%nat ->
  partial Qc QO Qcle (residual Qc q_ops lendog lstoch lparams l e) (rest_point Qc QO lstoch l [z0; z0; z]) c d ->
  partial Qc QO Qcle (residual Qc q_ops lendog lstoch lparams l e) (rest_point Qc QO lstoch l [z0; z0; z']) c d.
Proof.
  intros Sg He Hc (v & s & Vs & E); apply shifted_signature in Sg; subst l; apply In_nth_error in He as (i & Hi); pose proof (proj1 (shifted_nth w i e Hi)) as Li.
  change (List.length lsig + List.length lstoch)%nat with 8%nat in Hc.
  set (p := rest_point Qc QO lstoch lsig [z0; z0; z]) in *; set (p' := rest_point Qc QO lstoch lsig [z0; z0; z']).
  destruct (shifted_slope w i p c Li eq_refl Hc) as (C & HC); destruct (shifted_slope w i p' c Li eq_refl Hc) as (C' & HC').
  assert (Ed : d = l_slope i p c).
  { apply (slope_is v d (l_residual i p - shift_of w i) (l_slope i p c) s C Vs); revert E; apply near_mono; intros t E.
    rewrite <- HC; cbn [radd rmul QO] in E.
    apply (residual_unique e _ _ _ E), shifted_residual_is; [exact Hi|rewrite bump_length; reflexivity]. }
  assert (Es : l_slope i p' c = l_slope i p c) by (destruct i as [|[|[|i]]]; [| | |lia]; below8 c; reflexivity).
  exists (l_residual i p' - shift_of w i), (fun h => C' * h); split; [apply vanishes_line|].
  apply (near_all Qc QO Qcinv Q_field Qcle Q_ordered); intros t; cbn [radd rmul QO]; rewrite Ed, <- Es, <- HC'.
  apply shifted_residual_is; [exact Hi|rewrite bump_length; reflexivity].
Qed.
Lemma shifted_comparable w z z' : comparable Qc QO Qcle q_ops qgrad qjacobian no_function squares lendog lstoch (shifted w) lparams [z0; z0; z] [z0; z0; z'].
Proof.
  split; [exact (shifted_differentiates w)|]; split; [reflexivity|]; split; [apply shifted_smooth; reflexivity|]; split; [apply shifted_smooth; reflexivity|].
  right; intros l e c d Sg He Hc; apply (shifted_partial w l e c d z z' Sg He Hc).
Qed.
