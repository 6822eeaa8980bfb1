(** A concrete model over the rational numbers, with its derivatives. *)
From Verif Require Import Base Syntax Eval EvalSpec FactorySpec IndexingSpec DynFunc DynSpec DynProofs Nd NdInst NdProofs SimSpec OrderProofs PropDyn
  CalcSpec CalcProofs CalcProofs2 CalcProofs3 Linearize LinearizeSpec LinearizeProofs PropFirst PropSecond.
From Coq Require Import ZArith QArith Qcanon.
Local Open Scope string_scope.
Local Open Scope list_scope.
Local Open Scope nat_scope.

(** ** Derivatives of quadratic functions by differences *)
Section Differences.
  Notation F := Qc. Notation O := QO. Notation le := Qcle.
  Local Open Scope Qc_scope.
  Definition half_difference (a b : Qc) : Qc := (a - b) / (1 + 1).
  Definition qgrad (f : list Qc -> res Qc) (x : list Qc) : res (list Qc) :=
    mapM (fun j => do a <- f (bump Qc QO x j 1); do b <- f (bump Qc QO x j (Qcopp 1)); Ok (half_difference a b)) (seq 0 (List.length x)).
  Definition qjacobian (g : list Qc -> res (list Qc)) (x : list Qc) : res (list (list Qc)) :=
    mapM (fun c => mapM (fun j => do a <- g (bump Qc QO x j 1); do b <- g (bump Qc QO x j (Qcopp 1)); Ok (half_difference (nth c a 0) (nth c b 0)))
      (seq 0 (List.length x))) (seq 0 (List.length x)).

  Lemma mapM_map {A B} (f : A -> res B) (g : A -> B) l : (forall a, In a l -> f a = Ok (g a)) -> mapM f l = Ok (map g l).
  Proof.
    induction l as [|a l IH]; intros H; [reflexivity|]; cbn [mapM map]; rewrite (H a (or_introl eq_refl)), IH by (intros b Hb; apply H; right; exact Hb); reflexivity.
  Qed.
  Lemma nth_error_seq_map {B} (g : nat -> B) n i : (i < n)%nat -> nth_error (map g (seq 0 n)) i = Some (g i).
  Proof. intros H; rewrite nth_error_map, (nth_error_nth' _ 0%nat) by (rewrite seq_length; exact H); rewrite seq_nth by exact H; reflexivity. Qed.

  Lemma vanishes_line k : vanishes F O le (fun t => k * t).
  Proof. apply (vanishes_mul_l F O Qcinv Q_field le Q_ordered (fun _ => k) (fun t => t)); [apply (bounded_const F O Qcinv Q_field le Q_ordered)|exact (vanishes_id F O le)]. Qed.
  Lemma slope_is v a v' b s C : vanishes F O le s -> near F O le (fun t => v + a * t + s t * t = v' + b * t + C * t * t) -> a = b.
  Proof.
    intros Vs E; destruct (Qc_eq_dec a b) as [H|H]; [exact H|exfalso].
    exact (slope_unique F O Qcinv Q_field le Q_ordered v v' a b s (fun t => C * t) Vs (vanishes_line C) E H).
  Qed.

  Variable w : nat.
  Variable f : list Qc -> res Qc.
  Variable Q : list Qc -> Qc.
  Variable B : list Qc -> nat -> Qc.
  Variable D : nat -> nat -> Qc.
  Hypothesis Hf : forall y, List.length y = w -> f y = Ok (Q y).
  Hypothesis HB : forall y j, List.length y = w -> (j < w)%nat -> exists C, forall h, Q (bump Qc QO y j h) = Q y + B y j * h + C * h * h.
  Hypothesis HD : forall y c j h, List.length y = w -> (c < w)%nat -> (j < w)%nat -> B (bump Qc QO y j h) c = B y c + D c j * h.
  Lemma qgrad_is y : List.length y = w -> qgrad f y = Ok (map (B y) (seq 0 w)).
  Proof.
    intros Hy; unfold qgrad; rewrite Hy; apply mapM_map; intros j Hj; apply in_seq in Hj as [_ Hj]; cbn in Hj.
    rewrite !Hf by (rewrite bump_length; exact Hy); cbn [bind]; f_equal.
    destruct (HB y j Hy Hj) as (C & HC); rewrite !HC; unfold half_difference; field; discriminate.
  Qed.
  Lemma qgrad_ok : gradient F O le w f (qgrad f).
  Proof.
    intros x Hx _; exists (map (B x) (seq 0 w)); split; [apply qgrad_is, Hx|]; split; [rewrite map_length, seq_length; reflexivity|].
    intros j l Hj (v & s & Vs & E); rewrite nth_error_seq_map by exact Hj; f_equal; symmetry.
    destruct (HB x j Hx Hj) as (C & HC).
    apply (slope_is v l (Q x) (B x j) s C Vs); revert E; apply near_mono; intros t E.
    rewrite Hf in E by (rewrite bump_length; exact Hx); injection E as E; cbn in *; rewrite <- E; apply HC.
  Qed.
  Lemma qjacobian_ok : matrix_of F O le w (qgrad f) (qjacobian (qgrad f)).
  Proof.
    intros x Hx entry _.
    assert (E : qjacobian (qgrad f) x = Ok (map (fun c => map (D c) (seq 0 w)) (seq 0 w))).
    { unfold qjacobian; rewrite Hx; apply mapM_map; intros c Hc; apply mapM_map; intros j Hj; apply in_seq in Hc as [_ Hc], Hj as [_ Hj]; cbn in Hc, Hj.
      rewrite !qgrad_is by (rewrite bump_length; exact Hx); cbn [bind]; f_equal.
      rewrite !(nth_error_nth _ _ _ (nth_error_seq_map _ w c Hc)), !HD by assumption; unfold half_difference; field; discriminate. }
    exists (map (fun c => map (D c) (seq 0 w)) (seq 0 w)); split; [exact E|]; split; [rewrite map_length, seq_length; reflexivity|]; split.
    - apply Forall_forall; intros r Hr; apply in_map_iff in Hr as (c & <- & _); rewrite map_length, seq_length; reflexivity.
    - intros c j l Hc Hj (v & s & Vs & Ep); exists (map (D c) (seq 0 w)); rewrite !nth_error_seq_map by assumption; split; [reflexivity|f_equal; symmetry].
      apply (slope_is v l (B x c) (D c j) s 0 Vs); revert Ep; apply near_mono; intros t (r & Er & Ec).
      rewrite qgrad_is in Er by (rewrite bump_length; exact Hx); injection Er as <-; rewrite nth_error_seq_map in Ec by exact Hc; injection Ec as Ec.
      rewrite HD in Ec by assumption; cbn in *; rewrite <- Ec; ring.
  Qed.
End Differences.

(** ** The operators *)
Definition q_ops : ops Qc := Ops Qc (Q2Qc 0) (fun _ => false)
  (fun o x y => match o with
    | BAdd => Ok (Qcplus x y) | BSub => Ok (Qcminus x y) | BMul => Ok (Qcmult x y)
    | BDiv => if same y (Q2Qc 0) then Err GenericErr else Ok (Qcdiv x y)
    | BPow => if same y (q 2 1) then Ok (Qcmult x x) else Err GenericErr
    end)
  (fun o x => match o with UPos => Ok x | UNeg => Ok (Qcopp x) end)
  (fun _ _ _ => Err GenericErr) (fun _ _ => Err GenericErr).
(** No function but the square. *)
Definition no_function : string -> smooth_fun Qc := fun _ => SmoothFun (fun x => x) (fun x => x) (fun x => x) (fun _ => False).
Definition squares : Qc -> smooth_fun Qc := fun k => SmoothFun (fun x => Qcmult x x) (fun x => Qcplus x x) (fun _ => q 2 1) (fun _ => k = q 2 1).
Lemma q_interprets : interprets Qc QO Qcle q_ops no_function squares.
Proof.
  constructor; try reflexivity.
  - intros x y Hy; cbn; destruct (same y (Q2Qc 0)) eqn:E; [apply same_eq in E; contradiction|reflexivity].
  - intros g x [].
  - intros k x H; cbn in H; subst k; reflexivity.
  - intros a b [].
  - intros g a [].
  - intros k a H; cbn in H; subst k; split; [apply (near_all Qc QO Qcinv Q_field Qcle Q_ordered); reflexivity|]; split; cbn [sf sf1 sf2 squares].
    + exists (fun _ => Q2Qc 0); split; [apply (vanishes_zero Qc QO Qcinv Q_field Qcle Q_ordered)|]; apply (near_all Qc QO Qcinv Q_field Qcle Q_ordered); intros t.
      cbn [radd rmul rdiv r0 r1 QO]; replace (Qcdiv (q 2 1) (twice_one QO)) with (Q2Qc 1) by (apply Qc_is_canon; vm_compute; reflexivity); ring.
    + exists (fun _ => Q2Qc 0); split; [apply (vanishes_zero Qc QO Qcinv Q_field Qcle Q_ordered)|]; apply (near_all Qc QO Qcinv Q_field Qcle Q_ordered); intros t.
      cbn [radd rmul rdiv r0 r1 QO]; replace (q 2 1) with (Qcplus (Q2Qc 1) (Q2Qc 1)) by (apply Qc_is_canon; vm_compute; reflexivity); ring.
Qed.

(** ** The model *)

(** x = rho x(-1) + e + x(-1) (x(-1) + e), y(+1) + y(+1)^2 = 11/4 y - 3/2 y(-1) + f (1 - x),
    z = x + y + x y + c, with rho = 1/2 and c = 1.  The steady state is x = y = 0, z = 1. *)
Definition leq1 : ast Qc := Bin BSub (Var "x") (Bin BAdd (Bin BAdd (Bin BMul (Var "rho") (PVar "x" (-1))) (Var "e")) (Bin BMul (PVar "x" (-1)) (Bin BAdd (PVar "x" (-1)) (Var "e")))).
Definition leq2 : ast Qc := Bin BSub (Bin BAdd (PVar "y" 1) (Bin BPow (PVar "y" 1) (Num (q 2 1))))
  (Bin BAdd (Bin BSub (Bin BMul (Num (q 11 4)) (Var "y")) (Bin BMul (Num (q 3 2)) (PVar "y" (-1)))) (Bin BMul (Var "f") (Bin BSub (Num z1) (Var "x")))).
Definition leq3 : ast Qc := Bin BSub (Var "z") (Bin BAdd (Bin BAdd (Var "x") (Var "y")) (Bin BAdd (Bin BMul (Var "x") (Var "y")) (Var "c"))).
Definition lmodel : list (ast Qc) := [leq1; leq2; leq3].
Definition lendog : list string := ["x"; "y"; "z"].
Definition lstoch : list string := ["e"; "f"].
Definition lparams : list (string * Qc) := [("rho", q 1 2); ("c", z1)].
Definition lss : list Qc := [z0; z0; z1].
Definition lsig : list (nat * Z) := [(0, (-1)%Z); (1, (-1)%Z); (0, 0%Z); (1, 0%Z); (2, 0%Z); (1, 1%Z)].

Lemma lmodel_readable : readable lendog lstoch lmodel lparams.
Proof.
  split; [repeat constructor; cbn; intuition discriminate|].
  split; [intros x y Hx Hy; cbn [names app keys map fst In lendog lstoch lparams] in Hx, Hy; repeat (destruct Hx as [<-|Hx]); try contradiction; repeat (destruct Hy as [<-|Hy]); try contradiction; split; discriminate|].
  split; [|split].
  - split.
    + intros x Hx; exists 0%Z; cbn [lendog In] in Hx; destruct Hx as [<-|[<-|[<-|[]]]].
      * exists leq1; split; [left; reflexivity|apply P_binl; constructor].
      * exists leq3; split; [right; right; left; reflexivity|apply P_binr, P_binl, P_binr; constructor].
      * exists leq3; split; [right; right; left; reflexivity|apply P_binl; constructor].
    + intros x k e Hx He Hp; cbn [lmodel In] in He; destruct He as [<-|[<-|[<-|[]]]]; unfold leq1, leq2, leq3 in Hp; invert_tree; lia.
  - repeat (apply Forall_cons || apply Forall_nil).
    all: split; [split; [exact I|split; [cbn; tauto|cbn [functions leq1 leq2 leq3]; repeat apply conj; exact I]]|].
    all: split; [split; intros|split; intros x k H]; unfold leq1, leq2, leq3 in *; invert_tree; try (cbn; tauto); auto.
  - intros x [<-|[<-|[<-|[]]]]; reflexivity.
Qed.
Lemma lmodel_current i : i < List.length lendog -> occurs_at Qc lendog lmodel i 0.
Proof.
  intros Hi; destruct i as [|[|[|i]]]; [| | |cbn in Hi; lia].
  - exists "x", leq1; split; [reflexivity|]; split; [left; reflexivity|apply P_binl; constructor].
  - exists "y", leq3; split; [reflexivity|]; split; [right; right; left; reflexivity|apply P_binr, P_binl, P_binr; constructor].
  - exists "z", leq3; split; [reflexivity|]; split; [right; right; left; reflexivity|apply P_binl; constructor].
Qed.
Lemma lmodel_signature l : signature Qc lendog lmodel l -> l = lsig.
Proof.
  intros H; apply (signature_unique Qc lendog lmodel l lsig H); split.
  - intros i k; split.
    + intros [E|[E|[E|[E|[E|[E|[]]]]]]]; injection E as <- <-.
      * exists "x", leq1; split; [reflexivity|]; split; [left; reflexivity|apply P_binr, P_binl, P_binl, P_binr; constructor].
      * exists "y", leq2; split; [reflexivity|]; split; [right; left; reflexivity|apply P_binr, P_binl, P_binr, P_binr; constructor].
      * apply lmodel_current; cbn; lia.
      * apply lmodel_current; cbn; lia.
      * apply lmodel_current; cbn; lia.
      * exists "y", leq2; split; [reflexivity|]; split; [right; left; reflexivity|apply P_binl, P_binl; constructor].
    + intros (x & e & Hi & He & Ha); cbn [lmodel In] in He; destruct He as [<-|[<-|[<-|[]]]]; unfold leq1, leq2, leq3 in Ha; invert_tree;
        destruct i as [|[|[|[|i]]]]; try discriminate Hi; cbn; tauto.
  - intros a b u v Hab Ha Hb; destruct a as [|[|[|[|[|[|a]]]]]], b as [|[|[|[|[|[|b]]]]]]; try lia; cbn in Ha, Hb; try (destruct a; discriminate Ha); try (destruct b; discriminate Hb);
      injection Ha as <-; injection Hb as <-; unfold before; cbn [fst snd]; lia.
Qed.

(** The residuals as functions of the arguments x(-1), y(-1), x, y, z, y(+1), e, f, their
    derivatives and second derivatives. *)
Local Open Scope Qc_scope.
Definition l_residual (i : nat) (v : list Qc) : Qc :=
  match v with
  | [a; b; x; y; z; y1; e; f] =>
      match i with
      | 0%nat => x - (q 1 2 * a + e + a * (a + e))
      | 1%nat => (y1 + y1 * y1) - (q 11 4 * y - q 3 2 * b + f * (1 - x))
      | _ => z - (x + y + (x * y + 1))
      end
  | _ => 0
  end.
Definition l_slope (i : nat) (v : list Qc) (j : nat) : Qc :=
  match v with
  | [a; b; x; y; z; y1; e; f] =>
      nth j (nth i [[- q 1 2 - (1 + 1) * a - e; 0; 1; 0; 0; 0; Qcopp 1 - a; 0];
                    [0; q 3 2; f; - q 11 4; 0; 1 + (1 + 1) * y1; 0; x - 1];
                    [0; 0; Qcopp 1 - y; Qcopp 1 - x; 1; 0; 0; 0]] []) 0
  | _ => 0
  end.
Definition l_curve : nat -> nat -> nat -> Qc :=
  sparse [(0, 0, 0, Qcopp (Qcplus z1 z1)); (0, 0, 6, Qcopp z1); (1, 5, 5, Qcplus z1 z1); (1, 2, 7, z1); (2, 2, 3, Qcopp z1)]%nat.

Ltac eight v H := do 8 (destruct v as [|? v]; [discriminate H|]); destruct v; [clear H|discriminate H].
Ltac below8 j := destruct j as [|[|[|[|[|[|[|[|j]]]]]]]]; [..|exfalso; lia].
Lemma l_residual_slope i y j : (i < 3)%nat -> List.length y = 8%nat -> (j < 8)%nat ->
  exists C, forall h, l_residual i (bump Qc QO y j h) = l_residual i y + l_slope i y j * h + C * h * h.
Proof.
  intros Hi Hy Hj; eight y Hy; exists (match i, j with 0%nat, 0%nat => Qcopp 1 | 1%nat, 5%nat => 1 | _, _ => 0 end); intros h.
  destruct i as [|[|[|i]]]; [| | |lia]; below8 j; cbn [bump l_residual l_slope nth radd QO]; ring.
Qed.
Lemma l_slope_curve i y c j h : (i < 3)%nat -> List.length y = 8%nat -> (c < 8)%nat -> (j < 8)%nat ->
  l_slope i (bump Qc QO y j h) c = l_slope i y c + l_curve i c j * h.
Proof.
  intros Hi Hy Hc Hj; eight y Hy; destruct i as [|[|[|i]]]; [| | |lia]; below8 c; below8 j;
    cbn [bump l_slope nth radd QO l_curve sparse find Nat.eqb andb orb]; unfold z0, z1; ring.
Qed.
Lemma l_residual_is i e y : nth_error lmodel i = Some e -> List.length y = 8%nat ->
  residual Qc q_ops lendog lstoch lparams lsig e y (l_residual i y).
Proof.
  intros He Hy; eight y Hy; unfold residual; cbn [lsig List.length firstn skipn].
  destruct i as [|[|[|i]]]; [..|destruct i; discriminate He]; injection He as <-; cbn [l_residual]; unfold leq1, leq2, leq3.
  all: repeat match goal with
    | |- EvalSpec.value _ _ _ _ (Bin BSub _ _) (?a - ?b) => apply (V_bin _ _ _ _ BSub) with a b; [| |reflexivity]
    | |- EvalSpec.value _ _ _ _ (Bin BAdd _ _) (?a + ?b) => apply (V_bin _ _ _ _ BAdd) with a b; [| |reflexivity]
    | |- EvalSpec.value _ _ _ _ (Bin BMul _ _) (?a * ?b) => apply (V_bin _ _ _ _ BMul) with a b; [| |reflexivity]
    | |- EvalSpec.value _ _ _ _ (Bin BPow _ _) (?a * ?a) => apply (V_bin _ _ _ _ BPow) with a (PropFirst.q 2 1); [| |reflexivity]
    | |- EvalSpec.value _ _ _ _ (Num _) _ => constructor
    | |- EvalSpec.value _ _ _ _ (PVar _ _) _ => constructor; unfold at_time
    | |- EvalSpec.value _ _ _ _ (Var _) _ => constructor; unfold plain; cbn [lookup lparams String.eqb Ascii.eqb Bool.eqb]; try reflexivity
    end.
  all: first [left; (exists 0%nat, 2%nat; repeat split; reflexivity) || (exists 1%nat, 3%nat; repeat split; reflexivity) || (exists 2%nat, 4%nat; repeat split; reflexivity)
    | right; (exists 0%nat; split; reflexivity) || (exists 1%nat; split; reflexivity)
    | (exists 0%nat, 0%nat; repeat split; reflexivity) || (exists 1%nat, 1%nat; repeat split; reflexivity) || (exists 1%nat, 5%nat; repeat split; reflexivity)].
Qed.
Lemma lmodel_differentiates l : signature Qc lendog lmodel l -> differentiates Qc QO Qcle q_ops lendog lstoch lmodel lparams qgrad qjacobian l.
Proof.
  intros Sg; rewrite (lmodel_signature l Sg); unfold differentiates; change (List.length lsig + List.length lstoch)%nat with 8%nat; cbn zeta; intros e f He Hf.
  apply In_nth_error in He as (i & Hi); assert (Li : (i < 3)%nat) by (change 3%nat with (List.length lmodel); apply nth_error_Some; congruence).
  assert (Ef : forall y, List.length y = 8%nat -> f y = Ok (l_residual i y)) by (intros y Hy; apply (Hf y Hy), l_residual_is; assumption).
  split.
  - apply (qgrad_ok 8 f (l_residual i) (l_slope i) Ef); intros; apply l_residual_slope; assumption.
  - apply (qjacobian_ok 8 f (l_residual i) (l_slope i) (l_curve i) Ef); intros; [apply l_residual_slope|apply l_slope_curve]; assumption.
Qed.

(** The steady-state residuals as functions of x, y, z. *)
Definition s_residual (i : nat) (v : list Qc) : Qc :=
  match v with
  | [x; y; z] =>
      match i with
      | 0%nat => x - (q 1 2 * x + 0 + x * (x + 0))
      | 1%nat => (y + y * y) - (q 11 4 * y - q 3 2 * y + 0 * (1 - x))
      | _ => z - (x + y + (x * y + 1))
      end
  | _ => 0
  end.
Definition s_slope (i : nat) (v : list Qc) (j : nat) : Qc :=
  match v with
  | [x; y; z] => nth j (nth i [[1 - q 1 2 - (1 + 1) * x; 0; 0]; [0; 1 + (1 + 1) * y - q 11 4 + q 3 2; 0]; [Qcopp 1 - y; Qcopp 1 - x; 1]] []) 0
  | _ => 0
  end.
Lemma s_residual_slope i y j : (i < 3)%nat -> List.length y = 3%nat -> (j < 3)%nat ->
  exists C, forall h, s_residual i (bump Qc QO y j h) = s_residual i y + s_slope i y j * h + C * h * h.
Proof.
  intros Hi Hy Hj; destruct y as [|a [|b [|c [|? ?]]]]; try discriminate Hy; exists (match i, j with 0%nat, 0%nat => Qcopp 1 | 1%nat, 1%nat => 1 | _, _ => 0 end); intros h.
  destruct i as [|[|[|i]]]; [| | |lia]; destruct j as [|[|[|j]]]; try lia; cbn [bump s_residual s_slope nth radd QO]; ring.
Qed.
Lemma s_residual_tame i e y : nth_error lmodel i = Some e -> List.length y = 3%nat ->
  let rho := steady_plain Qc lendog lstoch lparams (r0 QO) y in
  tame Qc QO no_function squares (fun x => lookup x lparams <> None) rho (fun x _ => rho x) e (s_residual i y).
Proof.
  intros He Hy; destruct y as [|a [|b [|c [|? ?]]]]; try discriminate Hy; cbn zeta.
  destruct i as [|[|[|i]]]; [..|destruct i; discriminate He]; injection He as <-; cbn [s_residual]; unfold leq1, leq2, leq3.
  all: repeat match goal with
    | |- tame _ _ _ _ _ _ _ (Bin BSub _ _) _ => apply (S_sub Qc QO)
    | |- tame _ _ _ _ _ _ _ (Bin BAdd _ _) _ => apply (S_add Qc QO)
    | |- tame _ _ _ _ _ _ _ (Bin BMul _ _) _ => apply (S_mul Qc QO)
    | |- tame _ _ _ _ _ _ _ (Bin BPow ?l ?r) (?v * ?v) => apply (S_pow Qc QO no_function squares _ _ _ l r v (q 2 1))
    | |- tame _ _ _ _ _ _ _ (Num _) _ => constructor
    | |- tame _ _ _ _ _ _ _ (PVar _ _) _ => constructor; unfold steady_plain; cbn [lookup lparams String.eqb Ascii.eqb Bool.eqb]
    | |- tame _ _ _ _ _ _ _ (Var _) _ => constructor; unfold steady_plain; cbn [lookup lparams String.eqb Ascii.eqb Bool.eqb]; try reflexivity
    end.
  all: first [left; (exists 0%nat; split; reflexivity) || (exists 1%nat; split; reflexivity) || (exists 2%nat; split; reflexivity)
    | right; split; [cbn; tauto|reflexivity]
    | reflexivity
    | split; [intros x Hx; inversion Hx|intros x k Hx; inversion Hx]].
Qed.
Lemma lmodel_smooth y : List.length y = 3%nat -> smooth_at Qc QO lendog lstoch lmodel lparams no_function squares y.
Proof. intros Hy; apply Forall_forall; intros e He; apply In_nth_error in He as (i & Hi); eexists; apply (s_residual_tame i e y Hi Hy). Qed.
Lemma s_residual_is i e y : nth_error lmodel i = Some e -> List.length y = 3%nat -> steady_residual Qc QO q_ops lendog lstoch lparams e y (s_residual i y).
Proof. intros He Hy; apply (tame_value Qc QO Qcle q_ops no_function squares q_interprets lparams), (s_residual_tame i e y He Hy). Qed.
Lemma lmodel_steady : Forall (fun e => steady_residual Qc QO q_ops lendog lstoch lparams e lss (r0 QO)) lmodel.
Proof.
  apply Forall_forall; intros e He; apply In_nth_error in He as (i & Hi).
  replace (r0 QO) with (s_residual i lss); [apply s_residual_is; [exact Hi|reflexivity]|].
  destruct i as [|[|[|i]]]; [..|destruct i; discriminate Hi]; apply Qc_is_canon; vm_compute; reflexivity.
Qed.
Lemma lmodel_differentiates_steady : differentiates_steady Qc QO Qcle q_ops lendog lstoch lmodel lparams qgrad.
Proof.
  unfold differentiates_steady; change (List.length lendog) with 3%nat; cbn zeta; intros e f He Hf; apply In_nth_error in He as (i & Hi).
  assert (Li : (i < 3)%nat) by (change 3%nat with (List.length lmodel); apply nth_error_Some; congruence).
  apply (qgrad_ok 3 f (s_residual i) (s_slope i)); [intros y Hy; apply (Hf y Hy), s_residual_is; assumption|intros; apply s_residual_slope; assumption].
Qed.
