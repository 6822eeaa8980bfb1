(** Models whose names clash: properties C67 and C77 fail for them. *)
From Verif Require Import Base Syntax Eval EvalSpec FactorySpec Factory Indexing IndexingSpec DynFunc DynSpec DynProofs DynProofs2 Nd NdProofs SimSpec OrderProofs PropDyn
  CalcSpec CalcProofs CalcProofs2 CalcProofs3 Linearize LinearizeSpec LinearizeProofs LinearExample NdInst FirstOrderExample SecondOrderSpec PropFirst PropSecond Occbin PropLinear.
From Coq Require Import ZArith QArith Qcanon.
Local Open Scope string_scope.
Local Open Scope list_scope.
Local Open Scope nat_scope.

(** The equations x = x(-1)/2 + xm1 and xm1 = 1 hold at x = 2, xm1 = 1.  The constant of the
    first one is 1/2. *)
Theorem C67_refuted :
  NoDup kendog /\ Forall (fun e => well_formed Qc e /\ declared Qc kendog [] [] e /\ offsets Qc e /\ forall x k, occurs_t Qc x k e -> In x kendog) kmodel /\
  List.length kss = List.length kendog /\
  exists m v vs, build Qc kendog [] kmodel [] = Ok m /\ translate_ss (r_index Qc m) z0 kss = Ok v /\
    dynamic_call Qc q_ops z0 m v = Ok vs /\ vs <> [z0; z0] /\
    Forall2 (EvalSpec.value Qc q_ops (steady_plain Qc kendog [] [] z0 kss) (fun x _ => steady_plain Qc kendog [] [] z0 kss x)) kmodel [z0; z0].
Proof.
  split; [repeat constructor; cbn; intuition discriminate|]; split.
  { unfold kmodel; repeat (apply Forall_cons || apply Forall_nil).
    all: split; [split; [exact I|split; [cbn; tauto|cbn [functions]; repeat apply conj; exact I]]|].
    all: split; [split; intros|split; intros x k H]; invert_tree; try (cbn; tauto); auto. }
  split; [reflexivity|].
  assert (E : match build Qc kendog [] kmodel [] with Ok m => match translate_ss (r_index Qc m) z0 kss with Ok v =>
    match dynamic_call Qc q_ops z0 m v with Ok [a; b] => same a (q 1 2) && same b z0 | _ => false end | Err _ => false end | Err _ => false end = true) by (vm_compute; reflexivity).
  destruct (build Qc kendog [] kmodel []) as [m|]; [|discriminate E].
  destruct (translate_ss _ _ _) as [v|] eqn:Ev; [|discriminate E]; destruct (dynamic_call _ _ _ m v) as [[|a [|b [|? ?]]]|] eqn:Ed; try discriminate E.
  apply andb_true_iff in E as [E1 E2]; apply same_eq in E1, E2; subst a b.
  exists m, v, [q 1 2; z0]; split; [reflexivity|]; split; [exact Ev|]; split; [exact Ed|]; split; [discriminate|].
  unfold kmodel, kss; repeat constructor.
  - apply (V_bin _ _ _ _ BSub) with (q 2 1) (q 2 1); [| |cbn; f_equal; apply Qc_is_canon; vm_compute; reflexivity].
    + constructor; left; exists 0; split; reflexivity.
    + apply (V_bin _ _ _ _ BAdd) with z1 z1; [| |cbn; f_equal; apply Qc_is_canon; vm_compute; reflexivity].
      * apply (V_bin _ _ _ _ BMul) with (q 1 2) (q 2 1); [constructor| |cbn; f_equal; apply Qc_is_canon; vm_compute; reflexivity].
        constructor; left; exists 0; split; reflexivity.
      * constructor; left; exists 1; split; reflexivity.
  - apply (V_bin _ _ _ _ BSub) with z1 z1; [|constructor|cbn; f_equal; apply Qc_is_canon; vm_compute; reflexivity].
    constructor; left; exists 1; split; reflexivity.
Qed.
Print Assumptions C67_refuted.

(** The path moves x(-1) only. *)
Lemma k_first_value a x y v : residual Qc q_ops kendog [] [] ksig (nth 0 kmodel (Num z0)) [a; x; y] v -> v = Qcminus x (Qcplus (Qcmult (q 1 2) a) y).
Proof.
  unfold residual; cbn [kmodel nth ksig List.length firstn skipn]; intros H.
  repeat match goal with H : EvalSpec.value _ _ _ _ _ _ |- _ => inversion H; subst; clear H end.
  unfold plain, at_time in *; cbn [lookup] in *.
  repeat match goal with H : _ \/ _ |- _ => destruct H as [H|(? & H & _)]; [|match type of H with nth_error [] ?s = _ => destruct s; discriminate H end] end.
  repeat match goal with H : exists _ _, _ |- _ => let i := fresh "i" in let j := fresh "j" in destruct H as (i & j & ? & ? & ?) end.
  repeat match goal with
  | H : nth_error kendog ?i = Some _ |- _ => destruct i as [|[|[|?]]]; try discriminate H; clear H
  | H : nth_error ksig ?j = Some _ |- _ => destruct j as [|[|[|[|?]]]]; try discriminate H; clear H
  end.
  repeat match goal with
  | H : nth_error [_; _; _] _ = Some _ |- _ => cbn [nth_error] in H; injection H as <-
  | H : o_bin q_ops _ _ _ = Ok _ |- _ => cbn [o_bin q_ops] in H; injection H as <-
  end; reflexivity.
Qed.
Theorem C77_refuted :
  is_field QO Qcinv /\ is_ordered QO Qcle /\ interprets Qc QO Qcle q_ops no_function squares /\
  NoDup kendog /\ List.length kss = List.length kendog /\ smooth_at Qc QO kendog [] kmodel [] no_function squares kss /\
  (forall l, signature Qc kendog kmodel l -> differentiates Qc QO Qcle q_ops kendog [] kmodel [] qgrad qjacobian l) /\
  exists m J H, build Qc kendog [] kmodel [] = Ok m /\ signature Qc kendog kmodel ksig /\
    model_jacobian Qc q_ops (r0 QO) qgrad m kss = Ok (M2 2 3 J) /\
    model_hessian Qc q_ops (r0 QO) qgrad qjacobian m kss = Ok H /\
    exists (y : Qc -> list Qc) (b : nat -> Qc) e, (forall t, List.length (y t) = 3) /\
      (forall c, c < 3 -> jet2 Qc QO Qcle (fun t => nth c (y t) z0) (nth c (rest_point Qc QO [] ksig kss) z0) (b c) z0) /\ nth_error kmodel 0 = Some e /\
      forall r v c, near Qc QO Qcle (fun t => residual Qc q_ops kendog [] [] ksig e (y t) (r t)) ->
        ~ jet2 Qc QO Qcle r v (SimSpec.Sum Qc QO 3 (fun c => rmul QO (J 0 c) (b c))) c.
Proof.
  split; [exact Q_field|]; split; [exact Q_ordered|]; split; [exact q_interprets|].
  split; [repeat constructor; cbn; intuition discriminate|]; split; [reflexivity|]; split; [apply kmodel_smooth; reflexivity|]; split; [exact kmodel_differentiates|].
  assert (E : match build Qc kendog [] kmodel [] with Ok m =>
    match model_jacobian Qc q_ops (r0 QO) qgrad m kss, model_hessian Qc q_ops (r0 QO) qgrad qjacobian m kss with Ok (M2 r c J), Ok _ => (r =? 2) && (c =? 3) && same (J 0 0) z0 | _, _ => false end | Err _ => false end = true) by (vm_compute; reflexivity).
  destruct (build Qc kendog [] kmodel []) as [m|]; [|discriminate E].
  destruct (model_jacobian _ _ _ _ m kss) as [[?|? ?|r c J]|] eqn:EA; try discriminate E; destruct (model_hessian _ _ _ _ _ m kss) as [H|] eqn:EH; [|discriminate E].
  apply andb_true_iff in E as [E E3]; apply andb_true_iff in E as [E1 E2]; apply Nat.eqb_eq in E1 as ->; apply Nat.eqb_eq in E2 as ->; apply same_eq in E3.
  exists m, J, H; split; [reflexivity|]; split; [exact kmodel_signature|]; split; [exact EA|]; split; [exact EH|].
  exists (fun t => [Qcplus (q 2 1) t; q 2 1; z1]), (fun c => if c =? 0 then z1 else z0), (nth 0 kmodel (Num z0)); split; [reflexivity|]; split; [|split; [reflexivity|]].
  - intros c Hc; exists (fun _ => z0); split; [apply (vanishes_zero Qc QO Qcinv Q_field Qcle Q_ordered)|]; apply (near_all Qc QO Qcinv Q_field Qcle Q_ordered); intros t.
    destruct c as [|[|[|c]]]; [..|lia]; cbn [nth rest_point Nat.eqb radd rmul QO]; [change (nth 0 (rest_point Qc QO [] ksig kss) z0) with (q 2 1)|change (nth 1 (rest_point Qc QO [] ksig kss) z0) with (q 2 1)|change (nth 2 (rest_point Qc QO [] ksig kss) z0) with z1]; unfold z0, z1; ring.
  - intros r v c N (s & Vs & Es).
    assert (G : z0 = Qcopp (q 1 2)); [|discriminate G].
    apply (slope_is v z0 (Qcminus (q 2 1) (Qcplus z1 z1)) (Qcopp (q 1 2)) (fun t => Qcmult (s t) t) (Qcopp c)).
    + apply (vanishes_mul_bounded Qc QO Qcinv Q_field Qcle Q_ordered s (fun t => t) Vs), (vanishes_bounded Qc QO Qcinv Q_field Qcle Q_ordered), (vanishes_id Qc QO Qcle).
    + pose proof (near_and Qc QO Qcinv Q_field Qcle Q_ordered _ _ N Es) as M; revert M; apply near_mono; intros t [V Er]; apply k_first_value in V.
      rewrite V in Er; cbn [SimSpec.Sum Nat.eqb radd rmul QO r0] in Er; rewrite E3 in Er.
      replace (Qcplus (Qcplus v (Qcmult z0 t)) (Qcmult (Qcmult (s t) t) t))
        with (Qcminus (Qcminus (q 2 1) (Qcplus (Qcmult (q 1 2) (Qcplus (q 2 1) t)) z1)) (Qcmult c (Qcmult t t))) by (rewrite Er; unfold z0, z1; ring).
      replace (q 2 1) with (Qcplus z1 z1) by (apply Qc_is_canon; vm_compute; reflexivity).
      replace (Qcmult (q 1 2) (Qcplus (Qcplus z1 z1) t)) with (Qcplus z1 (Qcmult (q 1 2) t)); [unfold z1; ring|].
      replace z1 with (Qcplus (q 1 2) (q 1 2)) at 1 by (apply Qc_is_canon; vm_compute; reflexivity); unfold z1; ring.
Qed.
Print Assumptions C77_refuted.
