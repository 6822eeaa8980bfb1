(** A model that explodes: x = -2 x(-1) + e and y(+1) = 3 y + e. *)
From Verif Require Import Base Syntax Eval EvalSpec FactorySpec IndexingSpec DynFunc DynSpec DynProofs Nd NdInst NdProofs SimSpec OrderProofs PropDyn
  CalcSpec CalcProofs CalcProofs2 CalcProofs3 Linearize LinearizeSpec LinearizeProofs SteadyValuesSpec PropFirst PropSecond LinearExample.
From Coq Require Import ZArith QArith Qcanon.
Local Open Scope string_scope.
Local Open Scope list_scope.
Local Open Scope nat_scope.

Definition dendog : list string := ["x"; "y"].
Definition dstoch : list string := ["e"].
Definition deq1 : ast Qc := Bin BSub (Var "x") (Bin BAdd (Bin BMul (Num (q (-2) 1)) (PVar "x" (-1))) (Var "e")).
Definition deq2 : ast Qc := Bin BSub (PVar "y" 1) (Bin BAdd (Bin BMul (Num (q 3 1)) (Var "y")) (Var "e")).
Definition dmodel : list (ast Qc) := [deq1; deq2].
Lemma dmodel_readable : readable dendog dstoch dmodel [].
Proof.
  split; [repeat constructor; cbn; intuition discriminate|].
  split; [intros x y Hx Hy; cbn [names app keys map fst In dendog dstoch] in Hx, Hy; repeat (destruct Hx as [<-|Hx]); try contradiction; repeat (destruct Hy as [<-|Hy]); try contradiction; split; discriminate|].
  split; [|split].
  - split.
    + intros x Hx; exists 0%Z; cbn [dendog In] in Hx; destruct Hx as [<-|[<-|[]]].
      * exists deq1; split; [left; reflexivity|apply P_binl; constructor].
      * exists deq2; split; [right; left; reflexivity|apply P_binr, P_binl, P_binr; constructor].
    + intros x k e Hx He Hp; cbn [dmodel In] in He; destruct He as [<-|[<-|[]]]; unfold deq1, deq2 in Hp; invert_tree; lia.
  - repeat (apply Forall_cons || apply Forall_nil).
    all: split; [split; [exact I|split; [cbn; tauto|cbn [functions deq1 deq2]; repeat apply conj; exact I]]|].
    all: split; [split; intros|split; intros x k H]; unfold deq1, deq2 in *; invert_tree; try (cbn; tauto); auto.
  - intros x [<-|[<-|[]]]; reflexivity.
Qed.
Definition dsig : list (nat * Z) := [(0, (-1)%Z); (0, 0%Z); (1, 0%Z); (1, 1%Z)].
Lemma dmodel_signature : signature Qc dendog dmodel dsig.
Proof.
  split.
  - intros i k; split.
    + intros [E|[E|[E|[E|[]]]]]; injection E as <- <-.
      * exists "x", deq1; split; [reflexivity|]; split; [left; reflexivity|apply P_binr, P_binl, P_binr; constructor].
      * exists "x", deq1; split; [reflexivity|]; split; [left; reflexivity|apply P_binl; constructor].
      * exists "y", deq2; split; [reflexivity|]; split; [right; left; reflexivity|apply P_binr, P_binl, P_binr; constructor].
      * exists "y", deq2; split; [reflexivity|]; split; [right; left; reflexivity|apply P_binl; constructor].
    + intros (x & e & Hi & He & Hp); destruct i as [|[|i]]; cbn [dendog nth_error] in Hi; try (destruct i; discriminate); injection Hi as <-;
        cbn [dmodel In] in He; destruct He as [<-|[<-|[]]]; unfold deq1, deq2 in Hp; invert_tree; cbn [In dsig]; tauto.
  - intros a b u v Hab Ha Hb; destruct a as [|[|[|[|a]]]], b as [|[|[|[|b]]]]; try lia; cbn in Ha, Hb; try (destruct a; discriminate Ha); try (destruct b; discriminate Hb);
      injection Ha as <-; injection Hb as <-; unfold before; cbn [fst snd]; lia.
Qed.
Definition d_residual (i : nat) (v : list Qc) : Qc :=
  match v with
  | [a; x; y; z; e] => match i with 0 => Qcminus x (Qcplus (Qcmult (q (-2) 1) a) e) | _ => Qcminus z (Qcplus (Qcmult (q 3 1) y) e) end
  | _ => z0
  end.
Definition d_slope (i j : nat) : Qc := nth j (nth i [[Qcopp (q (-2) 1); z1; z0; z0; Qcopp z1]; [z0; z0; Qcopp (q 3 1); z1; Qcopp z1]] []) z0.
Lemma d_residual_slope i y j h : i < 2 -> List.length y = 5 -> j < 5 ->
  d_residual i (bump Qc QO y j h) = Qcplus (Qcplus (d_residual i y) (Qcmult (d_slope i j) h)) (Qcmult (Qcmult z0 h) h).
Proof.
  intros Hi Hy Hj; destruct y as [|a [|b [|c [|d [|e [|? ?]]]]]]; try discriminate Hy.
  destruct i as [|[|i]]; [| |lia]; destruct j as [|[|[|[|[|j]]]]]; try lia; cbn [bump d_residual d_slope nth radd QO]; unfold z0, z1; ring.
Qed.
Lemma d_residual_is i e y : nth_error dmodel i = Some e -> List.length y = 5 ->
  residual Qc q_ops dendog dstoch [] dsig e y (d_residual i y).
Proof.
  intros He Hy; destruct y as [|a [|b [|c [|d [|u [|? ?]]]]]]; try discriminate Hy; unfold residual; cbn [dsig List.length firstn skipn].
  destruct i as [|[|i]]; [..|destruct i; discriminate He]; injection He as <-; cbn [d_residual]; unfold deq1, deq2.
  all: repeat match goal with
    | |- EvalSpec.value _ _ _ _ (Bin BSub _ _) (Qcminus ?a ?b) => apply (V_bin _ _ _ _ BSub) with a b; [| |reflexivity]
    | |- EvalSpec.value _ _ _ _ (Bin BAdd _ _) (Qcplus ?a ?b) => apply (V_bin _ _ _ _ BAdd) with a b; [| |reflexivity]
    | |- EvalSpec.value _ _ _ _ (Bin BMul _ _) (Qcmult ?a ?b) => apply (V_bin _ _ _ _ BMul) with a b; [| |reflexivity]
    | |- EvalSpec.value _ _ _ _ (Num _) _ => constructor
    | |- EvalSpec.value _ _ _ _ (PVar _ _) _ => constructor; unfold at_time
    | |- EvalSpec.value _ _ _ _ (Var _) _ => constructor; unfold plain; cbn [lookup]
    end.
  all: (left; exists 0, 1; repeat split; reflexivity) || (left; exists 1, 2; repeat split; reflexivity) || (right; exists 0; split; reflexivity) ||
       (exists 0, 0; repeat split; reflexivity) || (exists 1, 3; repeat split; reflexivity).
Qed.
Lemma dmodel_differentiates l : signature Qc dendog dmodel l -> differentiates Qc QO Qcle q_ops dendog dstoch dmodel [] qgrad qjacobian l.
Proof.
  intros Sg; rewrite (signature_unique Qc dendog dmodel l dsig Sg dmodel_signature); unfold differentiates; change (List.length dsig + List.length dstoch) with 5; cbn zeta; intros e f He Hf.
  apply In_nth_error in He as (i & Hi); assert (Li : i < 2) by (change 2 with (List.length dmodel); apply nth_error_Some; congruence).
  assert (Ef : forall y, List.length y = 5 -> f y = Ok (d_residual i y)) by (intros y Hy; apply (Hf y Hy), d_residual_is; assumption).
  split.
  - apply (qgrad_ok 5 f (d_residual i) (fun _ => d_slope i) Ef); intros y j Hy Hj; exists z0; intros h; apply d_residual_slope; assumption.
  - apply (qjacobian_ok 5 f (d_residual i) (fun _ => d_slope i) (fun _ _ => z0) Ef).
    + intros y j Hy Hj; exists z0; intros h; apply d_residual_slope; assumption.
    + intros; unfold z0; ring.
Qed.
Lemma dmodel_smooth y : List.length y = 2 -> smooth_at Qc QO dendog dstoch dmodel [] no_function squares y.
Proof.
  intros Hy; destruct y as [|a [|b [|? ?]]]; try discriminate Hy; unfold smooth_at; cbn zeta; unfold dmodel, deq1, deq2; repeat (apply Forall_cons || apply Forall_nil); eexists.
  all: repeat match goal with
    | |- tame _ _ _ _ _ _ _ (Bin BSub _ _) _ => apply (S_sub Qc QO)
    | |- tame _ _ _ _ _ _ _ (Bin BAdd _ _) _ => apply (S_add Qc QO)
    | |- tame _ _ _ _ _ _ _ (Bin BMul _ _) _ => apply (S_mul Qc QO)
    | |- tame _ _ _ _ _ _ _ (Num _) _ => constructor
    | |- tame _ _ _ _ _ _ _ (PVar _ _) _ => constructor; unfold steady_plain; cbn [lookup]
    | |- tame _ _ _ _ _ _ _ (Var _) _ => constructor; unfold steady_plain; cbn [lookup]
    end.
  all: (left; exists 0; split; reflexivity) || (left; exists 1; split; reflexivity) || (right; split; [left; reflexivity|reflexivity]).
Qed.
Lemma dmodel_steady : Forall (fun e => steady_residual Qc QO q_ops dendog dstoch [] e [z0; z0] (r0 QO)) dmodel.
Proof.
  unfold dmodel, deq1, deq2; repeat (apply Forall_cons || apply Forall_nil); unfold steady_residual.
  - apply (V_bin _ _ _ _ BSub) with z0 z0; [| |cbn; f_equal; apply Qc_is_canon; vm_compute; reflexivity].
    + constructor; unfold steady_plain; cbn [lookup]; left; exists 0; split; reflexivity.
    + apply (V_bin _ _ _ _ BAdd) with z0 z0; [| |cbn; f_equal; apply Qc_is_canon; vm_compute; reflexivity].
      * apply (V_bin _ _ _ _ BMul) with (q (-2) 1) z0; [constructor| |cbn; f_equal; apply Qc_is_canon; vm_compute; reflexivity].
        constructor; unfold steady_plain; cbn [lookup]; left; exists 0; split; reflexivity.
      * constructor; unfold steady_plain; cbn [lookup]; right; split; [left; reflexivity|reflexivity].
  - apply (V_bin _ _ _ _ BSub) with z0 z0; [| |cbn; f_equal; apply Qc_is_canon; vm_compute; reflexivity].
    + constructor; unfold steady_plain; cbn [lookup]; left; exists 1; split; reflexivity.
    + apply (V_bin _ _ _ _ BAdd) with z0 z0; [| |cbn; f_equal; apply Qc_is_canon; vm_compute; reflexivity].
      * apply (V_bin _ _ _ _ BMul) with (q 3 1) z0; [constructor| |cbn; f_equal; apply Qc_is_canon; vm_compute; reflexivity].
        constructor; unfold steady_plain; cbn [lookup]; left; exists 1; split; reflexivity.
      * constructor; unfold steady_plain; cbn [lookup]; right; split; [left; reflexivity|reflexivity].
Qed.
