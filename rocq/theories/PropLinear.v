(** The Jacobian and Hessian of a model: properties C76 and C77. *)
From Verif Require Import Base Syntax Eval EvalSpec FactorySpec Factory Indexing IndexingSpec DynFunc DynSpec DynProofs DynProofs2 Nd NdProofs SimSpec OrderProofs PropDyn
  CalcSpec CalcProofs CalcProofs2 CalcProofs3 Linearize LinearizeSpec LinearizeProofs LinearExample NdInst FirstOrderExample SecondOrderSpec PropFirst PropSecond.
From Coq Require Import ZArith QArith Qcanon.
Local Open Scope string_scope.
Local Open Scope list_scope.
Local Open Scope nat_scope.

(** ** C76: the arrays hold the derivatives of the equations *)

(** Full statement: for every model and every point where its equations are smooth, the
    Jacobian holds the partial derivatives of the equations and the Hessian their second
    partial derivatives, one row for each equation and one column for each argument (each pair
    of arguments).  Proved for [readable] models: for the others see C28. *)
Theorem C76_partial :
  forall (F : Type) (O : rops F) (inv : F -> F) (le : F -> F -> Prop) (P : ops F) (fns : string -> smooth_fun F) (pows : F -> smooth_fun F)
    (grad : (list F -> res F) -> list F -> res (list F)) (jacobian : (list F -> res (list F)) -> list F -> res (list (list F)))
    (endog stoch : list string) (exprs : list (ast F)) (params : list (string * F)) (ss : list F),
  is_field O inv -> is_ordered O le -> interprets F O le P fns pows ->
  readable endog stoch exprs params -> List.length ss = List.length endog -> smooth_at F O endog stoch exprs params fns pows ss ->
  (forall l, signature F endog exprs l -> differentiates F O le P endog stoch exprs params grad jacobian l) ->
  exists m l J H, build F endog stoch exprs params = Ok m /\ signature F endog exprs l /\
    let w := List.length l + List.length stoch in
    model_jacobian F P (r0 O) grad m ss = Ok (M2 (List.length exprs) w J) /\
    model_hessian F P (r0 O) grad jacobian m ss = Ok (hessian (List.length exprs) w H) /\
    forall i e, nth_error exprs i = Some e ->
      (forall c, c < w -> partial F O le (residual F P endog stoch params l e) (rest_point F O stoch l ss) c (J i c)) /\
      (forall c d, c < w -> d < w -> partial2 F O le (residual F P endog stoch params l e) (rest_point F O stoch l ss) c d (H i c d) /\ H i c d = H i d c).
Proof.
  intros F O inv le P fns pows grad jacobian endog stoch exprs params ss FT OR HI (Nd & Nc & R & W & Dj) Ls Sm Hd.
  destruct (arrays F O inv FT le OR P fns pows HI endog stoch exprs params Nd Nc R W Dj ss Ls Sm grad jacobian Hd) as (m & lls & J & H & xs & Em & El & Ei & Sg & EJ & EH & Fx & G).
  exists m, (timed_vars (map snd lls)), J, H; split; [exact Em|]; split; [exact Sg|]; cbn zeta; split; [exact EJ|]; split; [exact EH|].
  intros i e He; destruct (Forall2_get _ _ _ i e Fx He) as (x & Hx & B & Fn & HR & _); destruct (G i x Hx) as [G1 G2].
  pose proof (rest_length F O stoch ss (timed_vars (map snd lls))) as Lr.
  split.
  - intros c Hc; rewrite (G1 c Hc); apply (ex_partial F O inv FT le OR _ x B); assumption.
  - intros c d Hc Hd'; rewrite !G2 by assumption; split; [apply (ex_partial2 F O inv FT le OR _ x B); assumption|apply (d2_sym F O inv FT)].
Qed.
Print Assumptions C76_partial.

(** The Jacobian of the steady-state equations. *)
Theorem C76_steady_partial :
  forall (F : Type) (O : rops F) (inv : F -> F) (le : F -> F -> Prop) (P : ops F) (fns : string -> smooth_fun F) (pows : F -> smooth_fun F)
    (grad : (list F -> res F) -> list F -> res (list F))
    (endog stoch : list string) (exprs : list (ast F)) (params : list (string * F)) (ss : list F),
  is_field O inv -> is_ordered O le -> interprets F O le P fns pows ->
  readable endog stoch exprs params -> List.length ss = List.length endog -> smooth_at F O endog stoch exprs params fns pows ss ->
  differentiates_steady F O le P endog stoch exprs params grad ->
  exists m J, build F endog stoch exprs params = Ok m /\
    steady_jacobian F P (r0 O) grad m ss = Ok (M2 (List.length exprs) (List.length endog) J) /\
    forall i e c, nth_error exprs i = Some e -> c < List.length endog ->
      partial F O le (steady_residual F O P endog stoch params e) ss c (J i c).
Proof.
  intros F O inv le P fns pows grad endog stoch exprs params ss FT OR HI (Nd & Nc & R & W & Dj) Ls Sm Hd.
  apply (steady_array F O inv FT le OR P fns pows HI endog stoch exprs params Nd R W Dj ss Ls Sm grad Hd).
Qed.
Print Assumptions C76_steady_partial.

(** A partial derivative is one number. *)
Theorem C76_unique :
  forall (F : Type) (O : rops F) (inv : F -> F) (le : F -> F -> Prop) (R : list F -> F -> Prop) (x : list F) (j : nat) (a b : F),
  is_field O inv -> is_ordered O le -> (forall y v v', List.length y = List.length x -> R y v -> R y v' -> v = v') ->
  partial F O le R x j a -> partial F O le R x j b -> ~ ~ a = b.
Proof.
  intros F O inv le R x j a b FT OR Hu (v & s & Vs & Es) (v' & s' & Vs' & Es').
  apply (slope_unique F O inv FT le OR v v' a b s s' Vs Vs').
  apply (near_two F O inv FT le OR) with (2 := Es) (3 := Es'); intros t H1 H2.
  exact (Hu _ _ _ ltac:(rewrite bump_length; reflexivity) H1 H2).
Qed.
Print Assumptions C76_unique.

(** ** C77: the arrays give the expansion of the equations *)

(** Full statement: for every model and every smooth path of the arguments from the steady
    state, the residual of each equation is its steady-state residual, plus the Jacobian times
    the first and second derivatives of the path, plus half the Hessian times the first
    derivatives, plus a term that is small of second order.  Proved for [readable] models. *)
Theorem C77_partial :
  forall (F : Type) (O : rops F) (inv : F -> F) (le : F -> F -> Prop) (P : ops F) (fns : string -> smooth_fun F) (pows : F -> smooth_fun F)
    (grad : (list F -> res F) -> list F -> res (list F)) (jacobian : (list F -> res (list F)) -> list F -> res (list (list F)))
    (endog stoch : list string) (exprs : list (ast F)) (params : list (string * F)) (ss : list F),
  is_field O inv -> is_ordered O le -> interprets F O le P fns pows ->
  readable endog stoch exprs params -> List.length ss = List.length endog -> smooth_at F O endog stoch exprs params fns pows ss ->
  (forall l, signature F endog exprs l -> differentiates F O le P endog stoch exprs params grad jacobian l) ->
  exists m l J H, build F endog stoch exprs params = Ok m /\ signature F endog exprs l /\
    let w := List.length l + List.length stoch in
    model_jacobian F P (r0 O) grad m ss = Ok (M2 (List.length exprs) w J) /\
    model_hessian F P (r0 O) grad jacobian m ss = Ok (hessian (List.length exprs) w H) /\
    forall (y : F -> list F) (b q : nat -> F),
      (forall t, List.length (y t) = w) ->
      (forall c, c < w -> jet2 F O le (fun t => nth c (y t) (r0 O)) (nth c (rest_point F O stoch l ss) (r0 O)) (b c) (q c)) ->
    forall i e, nth_error exprs i = Some e ->
      exists r v, near F O le (fun t => residual F P endog stoch params l e (y t) (r t)) /\
        steady_residual F O P endog stoch params e ss v /\
        jet2 F O le r v (Sum F O w (fun c => rmul O (J i c) (b c)))
          (radd O (Sum F O w (fun c => rmul O (J i c) (q c)))
             (rdiv O (Sum F O w (fun c => Sum F O w (fun d => rmul O (H i c d) (rmul O (b c) (b d))))) (twice_one O))).
Proof.
  intros F O inv le P fns pows grad jacobian endog stoch exprs params ss FT OR HI (Nd & Nc & R & W & Dj) Ls Sm Hd.
  destruct (expansion F O inv FT le OR P fns pows HI endog stoch exprs params Nd Nc R W Dj ss Ls Sm grad jacobian Hd) as (m & lls & J & H & Em & _ & _ & Sg & EJ & EH & _ & G).
  exists m, (timed_vars (map snd lls)), J, H; split; [exact Em|]; split; [exact Sg|]; cbn zeta; split; [exact EJ|]; split; [exact EH|].
  intros y b q Ly Hy i e He; destruct (G y b q Ly Hy i e He) as (r & v & N & T & _ & E); exists r, v; split; [exact N|]; split; [exact T|exact E].
Qed.
Print Assumptions C77_partial.

(** ** A concrete model *)
Definition flat_table (n w : nat) (H : nat -> nat -> nat -> Qc) : list (list Qc) :=
  map (fun i => map (fun p => H i (p / w) (p mod w)) (seq 0 (w * w))) (seq 0 n).
Example C76_nonvacuous :
  is_field QO Qcinv /\ is_ordered QO Qcle /\ interprets Qc QO Qcle q_ops no_function squares /\ readable lendog lstoch lmodel lparams /\
  List.length lss = List.length lendog /\ smooth_at Qc QO lendog lstoch lmodel lparams no_function squares lss /\
  (forall l, signature Qc lendog lmodel l -> differentiates Qc QO Qcle q_ops lendog lstoch lmodel lparams qgrad qjacobian l) /\
  differentiates_steady Qc QO Qcle q_ops lendog lstoch lmodel lparams qgrad /\
  exists m A B C, build Qc lendog lstoch lmodel lparams = Ok m /\
    model_jacobian Qc q_ops (r0 QO) qgrad m lss = Ok A /\ shown A xyz2_J = true /\
    model_hessian Qc q_ops (r0 QO) qgrad qjacobian m lss = Ok B /\ shown B (flat_table 3 8 xyz2_H) = true /\
    steady_jacobian Qc q_ops (r0 QO) qgrad m lss = Ok C /\ shown C [[q 1 2; z0; z0]; [z0; q (-1) 4; z0]; [q (-1) 1; q (-1) 1; z1]] = true.
Proof.
  split; [exact Q_field|]; split; [exact Q_ordered|]; split; [exact q_interprets|]; split; [exact lmodel_readable|]; split; [reflexivity|].
  split; [apply lmodel_smooth; reflexivity|]; split; [exact lmodel_differentiates|]; split; [exact lmodel_differentiates_steady|].
  assert (E : match build Qc lendog lstoch lmodel lparams with Ok m =>
    match model_jacobian Qc q_ops (r0 QO) qgrad m lss, model_hessian Qc q_ops (r0 QO) qgrad qjacobian m lss, steady_jacobian Qc q_ops (r0 QO) qgrad m lss with
    | Ok A, Ok B, Ok C => shown A xyz2_J && shown B (flat_table 3 8 xyz2_H) && shown C [[q 1 2; z0; z0]; [z0; q (-1) 4; z0]; [q (-1) 1; q (-1) 1; z1]]
    | _, _, _ => false end | Err _ => false end = true) by (vm_compute; reflexivity).
  destruct (build Qc lendog lstoch lmodel lparams) as [m|]; [|discriminate E].
  destruct (model_jacobian _ _ _ _ m lss) as [A|] eqn:EA; [|discriminate E].
  destruct (model_hessian _ _ _ _ _ m lss) as [B|] eqn:EB; [|discriminate E].
  destruct (steady_jacobian _ _ _ _ m lss) as [C|] eqn:EC; [|discriminate E].
  do 2 (apply andb_true_iff in E as [E ?]); exists m, A, B, C; repeat (split; [assumption || reflexivity|]); assumption.
Qed.

(** Models that are not [readable].  In x = x(-1)/2 + xm1 with a variable called xm1, both
    terms on the right are read from the argument of xm1: the entry for x(-1) is zero. *)
Definition kmodel : list (ast Qc) :=
  [Bin BSub (Var "x") (Bin BAdd (Bin BMul (Num (q 1 2)) (PVar "x" (-1))) (Var "xm1")); Bin BSub (Var "xm1") (Num z1)].
Definition kendog : list string := ["x"; "xm1"].
Definition kss : list Qc := [q 2 1; z1].
Definition ksig : list (nat * Z) := [(0, (-1)%Z); (0, 0%Z); (1, 0%Z)].
Lemma kmodel_signature : signature Qc kendog kmodel ksig.
Proof.
  split.
  - intros i k; split.
    + intros [E|[E|[E|[]]]]; injection E as <- <-.
      * exists "x"; eexists; split; [reflexivity|]; split; [left; reflexivity|apply P_binr, P_binl, P_binr; constructor].
      * exists "x"; eexists; split; [reflexivity|]; split; [left; reflexivity|apply P_binl; constructor].
      * exists "xm1"; eexists; split; [reflexivity|]; split; [left; reflexivity|apply P_binr, P_binr; constructor].
    + intros (x & e & Hi & He & Hp); destruct i as [|[|i]]; cbn [kendog nth_error] in Hi; try (destruct i; discriminate); injection Hi as <-;
        cbn [kmodel In] in He; destruct He as [<-|[<-|[]]]; invert_tree; cbn [In ksig]; tauto.
  - intros a b u v Hab Ha Hb; destruct a as [|[|[|a]]], b as [|[|[|b]]]; try lia; cbn in Ha, Hb; try (destruct a; discriminate Ha); try (destruct b; discriminate Hb);
      injection Ha as <-; injection Hb as <-; unfold before; cbn [fst snd]; lia.
Qed.
Definition k_residual (i : nat) (v : list Qc) : Qc :=
  match v with
  | [a; x; y] => match i with 0 => Qcminus x (Qcplus (Qcmult (q 1 2) a) y) | _ => Qcminus y z1 end
  | _ => z0
  end.
Definition k_slope (i j : nat) : Qc := nth j (nth i [[Qcopp (q 1 2); z1; Qcopp z1]; [z0; z0; z1]] []) z0.
Lemma k_residual_slope i y j h : i < 2 -> List.length y = 3 -> j < 3 ->
  k_residual i (bump Qc QO y j h) = Qcplus (Qcplus (k_residual i y) (Qcmult (k_slope i j) h)) (Qcmult (Qcmult z0 h) h).
Proof.
  intros Hi Hy Hj; destruct y as [|a [|b [|c [|? ?]]]]; try discriminate Hy.
  destruct i as [|[|i]]; [| |lia]; destruct j as [|[|[|j]]]; try lia; cbn [bump k_residual k_slope nth radd QO]; unfold z0, z1; ring.
Qed.
Lemma k_residual_is i e y : nth_error kmodel i = Some e -> List.length y = 3 ->
  residual Qc q_ops kendog [] [] ksig e y (k_residual i y).
Proof.
  intros He Hy; destruct y as [|a [|b [|c [|? ?]]]]; try discriminate Hy; unfold residual; cbn [ksig List.length firstn skipn].
  destruct i as [|[|i]]; [..|destruct i; discriminate He]; injection He as <-; cbn [k_residual].
  all: repeat match goal with
    | |- EvalSpec.value _ _ _ _ (Bin BSub _ _) (Qcminus ?a ?b) => apply (V_bin _ _ _ _ BSub) with a b; [| |reflexivity]
    | |- EvalSpec.value _ _ _ _ (Bin BAdd _ _) (Qcplus ?a ?b) => apply (V_bin _ _ _ _ BAdd) with a b; [| |reflexivity]
    | |- EvalSpec.value _ _ _ _ (Bin BMul _ _) (Qcmult ?a ?b) => apply (V_bin _ _ _ _ BMul) with a b; [| |reflexivity]
    | |- EvalSpec.value _ _ _ _ (Num _) _ => constructor
    | |- EvalSpec.value _ _ _ _ (PVar _ _) _ => constructor; unfold at_time
    | |- EvalSpec.value _ _ _ _ (Var _) _ => constructor; unfold plain; cbn [lookup]; left
    end.
  all: (exists 0, 0; repeat split; reflexivity) || (exists 0, 1; repeat split; reflexivity) || (exists 1, 2; repeat split; reflexivity).
Qed.
Lemma kmodel_differentiates l : signature Qc kendog kmodel l -> differentiates Qc QO Qcle q_ops kendog [] kmodel [] qgrad qjacobian l.
Proof.
  intros Sg; rewrite (signature_unique Qc kendog kmodel l ksig Sg kmodel_signature); unfold differentiates; change (List.length ksig + List.length ([] : list string)) with 3; cbn zeta; intros e f He Hf.
  apply In_nth_error in He as (i & Hi); assert (Li : i < 2) by (change 2 with (List.length kmodel); apply nth_error_Some; congruence).
  assert (Ef : forall y, List.length y = 3 -> f y = Ok (k_residual i y)) by (intros y Hy; apply (Hf y Hy), k_residual_is; assumption).
  split.
  - apply (qgrad_ok 3 f (k_residual i) (fun _ => k_slope i) Ef); intros y j Hy Hj; exists z0; intros h; apply k_residual_slope; assumption.
  - apply (qjacobian_ok 3 f (k_residual i) (fun _ => k_slope i) (fun _ _ => z0) Ef).
    + intros y j Hy Hj; exists z0; intros h; apply k_residual_slope; assumption.
    + intros; unfold z0; ring.
Qed.
Lemma kmodel_smooth y : List.length y = 2 -> smooth_at Qc QO kendog [] kmodel [] no_function squares y.
Proof.
  intros Hy; destruct y as [|a [|b [|? ?]]]; try discriminate Hy; unfold smooth_at; cbn zeta; unfold kmodel; repeat (apply Forall_cons || apply Forall_nil); eexists.
  all: repeat match goal with
    | |- tame _ _ _ _ _ _ _ (Bin BSub _ _) _ => apply (S_sub Qc QO)
    | |- tame _ _ _ _ _ _ _ (Bin BAdd _ _) _ => apply (S_add Qc QO)
    | |- tame _ _ _ _ _ _ _ (Bin BMul _ _) _ => apply (S_mul Qc QO)
    | |- tame _ _ _ _ _ _ _ (Num _) _ => constructor
    | |- tame _ _ _ _ _ _ _ (PVar _ _) _ => constructor; unfold steady_plain; cbn [lookup]; left
    | |- tame _ _ _ _ _ _ _ (Var _) _ => constructor; unfold steady_plain; cbn [lookup]; left
    end.
  all: (exists 0; split; reflexivity) || (exists 1; split; reflexivity).
Qed.
Theorem C76_refuted :
  is_field QO Qcinv /\ is_ordered QO Qcle /\ interprets Qc QO Qcle q_ops no_function squares /\
  NoDup kendog /\ Forall (fun e => well_formed Qc e /\ declared Qc kendog [] [] e /\ offsets Qc e) kmodel /\
  List.length kss = List.length kendog /\ smooth_at Qc QO kendog [] kmodel [] no_function squares kss /\
  (forall l, signature Qc kendog kmodel l -> differentiates Qc QO Qcle q_ops kendog [] kmodel [] qgrad qjacobian l) /\
  exists m J, build Qc kendog [] kmodel [] = Ok m /\ signature Qc kendog kmodel ksig /\
    model_jacobian Qc q_ops (r0 QO) qgrad m kss = Ok (M2 2 3 J) /\
    exists e, nth_error kmodel 0 = Some e /\
      partial Qc QO Qcle (residual Qc q_ops kendog [] [] ksig e) (rest_point Qc QO [] ksig kss) 0 (q (-1) 2) /\ J 0 0 = z0.
Proof.
  split; [exact Q_field|]; split; [exact Q_ordered|]; split; [exact q_interprets|].
  split; [repeat constructor; cbn; intuition discriminate|]; split.
  { unfold kmodel; repeat (apply Forall_cons || apply Forall_nil).
    all: split; [split; [exact I|split; [cbn; tauto|cbn [functions]; repeat apply conj; exact I]]|].
    all: split; [split; intros|intros x k H]; invert_tree; try (cbn; tauto); auto. }
  split; [reflexivity|]; split; [apply kmodel_smooth; reflexivity|]; split; [exact kmodel_differentiates|].
  assert (E : match build Qc kendog [] kmodel [] with Ok m =>
    match model_jacobian Qc q_ops (r0 QO) qgrad m kss with Ok (M2 r c J) => (r =? 2) && (c =? 3) && same (J 0 0) z0 | _ => false end | Err _ => false end = true) by (vm_compute; reflexivity).
  destruct (build Qc kendog [] kmodel []) as [m|]; [|discriminate E].
  destruct (model_jacobian _ _ _ _ m kss) as [[?|? ?|r c J]|] eqn:EA; try discriminate E.
  apply andb_true_iff in E as [E E3]; apply andb_true_iff in E as [E1 E2]; apply Nat.eqb_eq in E1 as ->; apply Nat.eqb_eq in E2 as ->.
  exists m, J; split; [reflexivity|]; split; [exact kmodel_signature|]; split; [exact EA|].
  eexists; split; [reflexivity|]; split; [|apply same_eq, E3].
  exists (k_residual 0 (rest_point Qc QO [] ksig kss)), (fun _ => z0).
  split; [apply (vanishes_zero Qc QO Qcinv Q_field Qcle Q_ordered)|]; apply (near_all Qc QO Qcinv Q_field Qcle Q_ordered); intros h.
  replace (radd QO (radd QO (k_residual 0 (rest_point Qc QO [] ksig kss)) (rmul QO (q (-1) 2) h)) (rmul QO z0 h))
    with (k_residual 0 (bump Qc QO (rest_point Qc QO [] ksig kss) 0 h)).
  - apply k_residual_is; [reflexivity|]. rewrite bump_length; reflexivity.
  - rewrite k_residual_slope by (cbn; lia || reflexivity); cbn [k_slope nth radd rmul QO].
    replace (q (-1) 2) with (Qcopp (q 1 2)) by (apply Qc_is_canon; vm_compute; reflexivity); unfold z0; ring.
Qed.
Print Assumptions C76_refuted.
