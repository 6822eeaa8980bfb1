(** The values of the steady state: property C84. *)
From Verif Require Import Base Syntax Eval EvalSpec FactorySpec Indexing IndexingSpec DynFunc DynSpec DynProofs DynProofs2 Nd NdInst NdProofs SimSpec
  OrderProofs CalcSpec CalcProofs CalcProofs2 CalcProofs3 Linearize LinearizeSpec LinearizeProofs PropDyn PropFirst PropSecond LinearExample AccuracyProofs2
  Steady PropSteady SteadyValues SteadyValuesSpec.
From Coq Require Import ZArith QArith Qcanon Ring Field.
Local Open Scope string_scope.
Local Open Scope list_scope.
Local Open Scope nat_scope.

Lemma mapM_Forall2 {A B} (f : A -> res B) l r : mapM f l = Ok r <-> Forall2 (fun a b => f a = Ok b) l r.
Proof.
  revert r; induction l as [|a l IH]; intros r; cbn [mapM].
  - split; [intros E; injection E as <-; constructor|intros H; inversion H; reflexivity].
  - split.
    + destruct (f a) as [b|] eqn:E; cbn [bind]; [|discriminate]; destruct (mapM f l) as [r'|] eqn:Er; cbn [bind]; [|discriminate].
      intros H; injection H as <-; constructor; [exact E|apply IH; reflexivity].
    + intros H; inversion H as [|? b ? r' Eb Hr]; subst; rewrite Eb; cbn [bind]; rewrite (proj2 (IH r') Hr); reflexivity.
Qed.
Lemma Forall2_map_l {A B C} (g : A -> B) (R : B -> C -> Prop) l r : Forall2 R (map g l) r <-> Forall2 (fun a c => R (g a) c) l r.
Proof.
  revert r; induction l as [|a l IH]; intros r; cbn [map]; split; intros H; inversion H; subst; constructor; try assumption; apply IH; assumption.
Qed.

Section Find.
  Variable F : Type.
  Variable O : rops F.
  Variable inv : F -> F.
  Variable FT : is_field O inv.
  Variable le : F -> F -> Prop.
  Hypothesis OR : is_ordered O le.
  Hypothesis dec : forall x y : F, x = y \/ x <> y.
  Let FT' : field_theory (r0 O) (r1 O) (radd O) (rmul O) (rsub O) (ropp O) (rdiv O) inv eq := FT.
  Add Field Ffind : FT'.
  Variable P : ops F.
  Variable endog stoch : list string.
  Variable exprs : list (ast F).
  Variable params : list (string * F).
  Hypothesis Rd : readable endog stoch exprs params.
  Notation "0" := (r0 O). Notation "1" := (r1 O).
  Infix "+" := (radd O). Infix "*" := (rmul O). Infix "-" := (rsub O). Infix "/" := (rdiv O).
  Notation "- x" := (ropp O x).
  Infix "<=" := le.
  Notation rsum := (Nd.rsum F O).
  Notation jet1 := (CalcSpec.jet1 F O le).
  Notation near := (CalcSpec.near F O le).
  Notation sres := (steady_residual F O P endog stoch params).

  Lemma square_zero x : x * x = 0 -> x = 0.
  Proof. intros H; destruct (dec x 0) as [E|N]; [exact E|]; exfalso; exact (mul_nz F O inv FT x x N N H). Qed.
  Lemma sum_squares_zero n f : rsum n (fun i => f i * f i) = 0 -> forall i, (i < n)%nat -> f i = 0.
  Proof.
    induction n as [|n IH]; intros H i Hi; [lia|]; cbn [Nd.rsum] in H.
    assert (A : 0 <= rsum n (fun i => f i * f i)) by (apply (sum_nonneg F O inv FT le OR); intros j _; apply (sq_nonneg F O inv FT le OR)).
    assert (B : 0 <= f n * f n) by apply (sq_nonneg F O inv FT le OR).
    assert (Z : f n * f n = 0).
    { apply (o_anti _ _ OR); [|exact B]; rewrite <- H; replace (f n * f n) with (0 + f n * f n) at 1 by ring; apply (o_add _ _ OR), A. }
    rewrite Z in H; assert (H' : rsum n (fun i => f i * f i) = 0) by (rewrite <- H; ring).
    destruct (Nat.eq_dec i n) as [->|N]; [apply square_zero, Z|apply IH; [exact H'|lia]].
  Qed.

  (** Where a function is least, its slope is zero. *)
  Lemma least_slope g a b : jet1 g a b -> near (fun t => a <= g t) -> b = 0.
  Proof.
    intros (s & Vs & E) L; destruct (dec b 0) as [Z|N]; [exact Z|exfalso].
    assert (Half : exists c, CalcSpec.positive F O le c /\ (b = c + c \/ b = - (c + c))).
    { destruct (o_total _ _ OR 0 b) as [H|H].
      - exists (b / twice_one O); split; [apply (pos_half F O inv FT le OR); split; assumption|left; apply (halves F O inv FT le OR)].
      - assert (Pb : CalcSpec.positive F O le (- b)).
        { split; [apply (le_sub F O inv FT le OR); replace (- b - 0) with (0 - b) by ring; apply (proj1 (le_sub F O inv FT le OR _ _)), H|].
          intros G; apply N; replace b with (- - b) by ring; rewrite G; ring. }
        exists (- b / twice_one O); split; [apply (pos_half F O inv FT le OR), Pb|right; rewrite <- (halves F O inv FT le OR); ring]. }
    destruct Half as (c & Pc & Hc).
    destruct (near_and F O inv FT le OR _ _ (Vs c Pc) (near_and F O inv FT le OR _ _ E L)) as (d & Pd & H).
    assert (Wd : CalcSpec.within F O le d d /\ CalcSpec.within F O le d (- d)).
    { assert (X : - d <= d) by (apply (o_trans _ _ OR) with 0; [|apply Pd]; apply (le_sub F O inv FT le OR); replace (0 - - d) with d by ring; apply Pd).
      split; split; try exact X; apply (OrderProofs.le_refl F O le OR). }
    assert (K : forall t, CalcSpec.within F O le d t -> 0 <= (b + s t) * t).
    { intros t Wt; destruct (H t Wt) as (_ & Et & Lt); rewrite Et in Lt.
      apply (proj1 (le_sub F O inv FT le OR _ _)) in Lt; replace (a + b * t + s t * t - a) with ((b + s t) * t) in Lt by ring; exact Lt. }
    assert (Q : forall x, CalcSpec.positive F O le d -> c <= x -> ~ 0 <= - (x * d)).
    { intros x Pd' Hx G; assert (X : CalcSpec.positive F O le (c * d)) by (apply (pos_mul F O inv FT le OR); assumption).
      apply (proj2 X), (o_anti _ _ OR); [|apply X].
      apply (o_trans _ _ OR) with (x * d).
      - apply (le_sub F O inv FT le OR); replace (x * d - c * d) with ((x - c) * d) by ring; apply (o_mul _ _ OR); [apply (proj1 (le_sub F O inv FT le OR _ _)), Hx|apply Pd].
      - apply (le_sub F O inv FT le OR); replace (0 - x * d) with (- (x * d)) by ring; exact G. }
    destruct Hc as [-> | ->].
    - pose proof (K (- d) (proj2 Wd)) as K1; replace ((c + c + s (- d)) * - d) with (- ((c + c + s (- d)) * d)) in K1 by ring.
      apply (Q _ Pd) in K1; [exact K1|]; apply (le_sub F O inv FT le OR); replace (c + c + s (- d) - c) with (s (- d) - - c) by ring.
      apply (proj1 (le_sub F O inv FT le OR _ _)); apply (H (- d) (proj2 Wd)).
    - pose proof (K d (proj1 Wd)) as K1; replace ((- (c + c) + s d) * d) with (- ((c + c - s d) * d)) in K1 by ring.
      apply (Q _ Pd) in K1; [exact K1|]; apply (le_sub F O inv FT le OR); replace (c + c - s d - c) with (c - s d) by ring.
      apply (proj1 (le_sub F O inv FT le OR _ _)); apply (H d (proj1 Wd)).
  Qed.

  (** ** The sum of squares *)
  Lemma objective m y v : build F endog stoch exprs params = Ok m -> List.length y = List.length endog ->
    (least_squares F O P m y = Ok v <-> exists r, (forall i e, nth_error exprs i = Some e -> sres e y (r i)) /\ v = rsum (List.length exprs) (fun i => r i * r i)).
  Proof.
    intros Em Ly; destruct Rd as (Nd & Nc & R & W & Dj).
    assert (Ha : Forall (algebraic F) exprs) by (apply Forall_impl with (2 := W); intros e ((_ & H & _) & _); exact H).
    destruct (build_ok F endog exprs stoch params (Ne endog stoch Nd) R Ha) as (m' & Em' & E1 & E2 & E3 & E4 & _); rewrite Em in Em'; injection Em' as <-.
    unfold least_squares, steady_funcs; rewrite E1, E3, E4.
    assert (S : forall e v, In e exprs -> (steady_func F P 0 e endog params y = Ok v <-> sres e y v)).
    { intros e u He; destruct (proj1 (Forall_forall _ _) W e He) as ((We & Wa & Wf) & Wd & _); apply (steady_value F P 0 endog stoch params Nd y Ly e u); assumption. }
    assert (G : forall r, Forall2 (fun f b => f y = Ok b) (map (fun e => steady_func F P 0 e endog params) exprs) r <->
      (List.length exprs = List.length r /\ forall i e, nth_error exprs i = Some e -> sres e y (nth i r 0))).
    { intros r; rewrite Forall2_map_l; split.
      - intros H; split; [exact (Forall2_len _ _ _ H)|]; intros i e He; destruct (Forall2_get _ _ _ _ _ H He) as (b & Hb & Eb).
        rewrite (nth_error_nth _ _ _ Hb); apply S; [exact (nth_error_In _ _ He)|exact Eb].
      - assert (K : forall l, incl l exprs -> forall r, List.length l = List.length r -> (forall i e, nth_error l i = Some e -> sres e y (nth i r 0)) ->
          Forall2 (fun e b => steady_func F P 0 e endog params y = Ok b) l r); [|intros [L H]; exact (K exprs (fun x Hx => Hx) r L H)].
        clear r; induction l as [|e l IH]; intros I r L H.
        + destruct r; [constructor|discriminate L].
        + destruct r as [|b r]; [discriminate L|]; constructor.
          * apply S; [apply I; left; reflexivity|exact (H 0%nat e eq_refl)].
          * apply IH; [intros x Hx; apply I; right; exact Hx|cbn in L; lia|intros i e' He'; exact (H (Datatypes.S i) e' He')]. }
    split.
    - destruct (mapM _ _) as [r|] eqn:Er; cbn [bind]; [|discriminate]; intros E; injection E as <-.
      apply mapM_Forall2, G in Er as [L H]; exists (fun i => nth i r 0); split; [exact H|rewrite L; reflexivity].
    - intros (r & H & ->); set (rl := map r (seq 0 (List.length exprs))).
      assert (Gr : forall i, (i < List.length exprs)%nat -> nth i rl 0 = r i).
      { intros i Hi; unfold rl; rewrite (nth_indep _ 0 (r 0%nat)) by (rewrite map_length, seq_length; exact Hi); rewrite map_nth, seq_nth by exact Hi; reflexivity. }
      assert (L : List.length exprs = List.length rl) by (unfold rl; rewrite map_length, seq_length; reflexivity).
      assert (Er : mapM (fun f => f y) (map (fun e => steady_func F P 0 e endog params) exprs) = Ok rl).
      { apply mapM_Forall2, G; split; [exact L|]; intros i e He; rewrite Gr by (apply nth_error_Some; congruence); apply (H i e He). }
      rewrite Er; cbn [bind]; f_equal; rewrite <- L; apply rsum_ext; intros i Hi; rewrite Gr by exact Hi; reflexivity.
  Qed.

  Lemma sres_unique e y v v' : In e exprs -> List.length y = List.length endog -> sres e y v -> sres e y v' -> v = v'.
  Proof.
    destruct Rd as (Nd & Nc & R & W & Dj); intros He Ly H H'; destruct (proj1 (Forall_forall _ _) W e He) as ((We & Wa & Wf) & Wd & _).
    apply (steady_value F P 0 endog stoch params Nd y Ly e) in H, H'; try assumption; congruence.
  Qed.
  Lemma zero_iff m x : build F endog stoch exprs params = Ok m -> List.length x = List.length endog ->
    (least_squares F O P m x = Ok 0 <-> is_steady F O P endog stoch exprs params x).
  Proof.
    intros Em Lx; rewrite (objective m x 0 Em Lx); split.
    - intros (r & H & E); split; [exact Lx|]; apply Forall_forall; intros e He; apply In_nth_error in He as (i & Hi).
      rewrite <- (sum_squares_zero _ r (eq_sym E) i) by (apply nth_error_Some; congruence); exact (H i e Hi).
    - intros [_ H]; exists (fun _ => 0); split; [intros i e He; exact (proj1 (Forall_forall _ _) H e (nth_error_In _ _ He))|].
      rewrite (rsum_all_zero F O (F_R FT)); [reflexivity|intros; ring].
  Qed.
  Lemma square_nonneg m x u : build F endog stoch exprs params = Ok m -> List.length x = List.length endog -> least_squares F O P m x = Ok u -> 0 <= u.
  Proof.
    intros Em Lx H; apply (objective m x u Em Lx) in H as (r & _ & ->); apply (sum_nonneg F O inv FT le OR); intros i _; apply (sq_nonneg F O inv FT le OR).
  Qed.
  Lemma minimum_steady m x : build F endog stoch exprs params = Ok m -> least F le (List.length endog) (least_squares F O P m) x ->
    (exists y, is_steady F O P endog stoch exprs params y) -> is_steady F O P endog stoch exprs params x.
  Proof.
    intros Em (Lx & u & Eu & H) (y & Hy); apply (zero_iff m x Em Lx); rewrite Eu; f_equal; apply (o_anti _ _ OR); [|exact (square_nonneg m x u Em Lx Eu)].
    apply (H y 0 (proj1 Hy)), (zero_iff m y Em (proj1 Hy)), Hy.
  Qed.

  Lemma bump_none x j : bump F O x j 0 = x.
  Proof. revert j; induction x as [|a x IH]; intros [|j]; cbn [bump]; [reflexivity..| |]; f_equal; [ring|apply IH]. Qed.
  Lemma bump_by x j h i : nth i (bump F O x j h) 0 - nth i x 0 = h \/ nth i (bump F O x j h) 0 - nth i x 0 = 0.
  Proof.
    revert i j; induction x as [|a x IH]; intros [|i] [|j]; cbn [bump nth]; try (right; ring); [left; ring|apply IH].
  Qed.
  Lemma jet1_sum n (f : nat -> F -> F) a b : (forall i, (i < n)%nat -> jet1 (f i) (a i) (b i)) -> jet1 (fun t => rsum n (fun i => f i t)) (rsum n a) (rsum n b).
  Proof.
    induction n as [|n IH]; intros H; cbn [Nd.rsum]; [apply (jet1_const F O inv FT le OR)|].
    apply (jet1_add F O inv FT le OR); [apply IH; intros i Hi; apply H; lia|apply H; lia].
  Qed.
  Lemma nearby_steady m x J : build F endog stoch exprs params = Ok m -> least_nearby F O le (List.length endog) (least_squares F O P m) x ->
    (forall i e c, nth_error exprs i = Some e -> (c < List.length endog)%nat -> partial F O le (sres e) x c (J i c)) ->
    independent_rows F O (List.length exprs) (List.length endog) J -> is_steady F O P endog stoch exprs params x.
  Proof.
    intros Em (Lx & u & d & Eu & Pd & H) HJ Ind; split; [exact Lx|].
    destruct (proj1 (objective m x u Em Lx) Eu) as (r & Hr & Er).
    assert (Z : forall i, (i < List.length exprs)%nat -> r i = 0).
    { apply Ind; intros j Hj; rewrite Sum_rsum.
      destruct (choose_below (fun _ : F => 0) (fun i g => exists e, nth_error exprs i = Some e /\ jet1 g (r i) (J i j) /\ near (fun t => sres e (bump F O x j t) (g t))) (List.length exprs)) as (g & Hg).
      { intros i Hi; destruct (nth_error exprs i) as [e|] eqn:He; [|apply nth_error_None in He; lia].
        destruct (HJ i e j He Hj) as (v & s & Vs & N); exists (fun t => v + J i j * t + s t * t), e; split; [reflexivity|]; split; [|exact N].
        pose proof (near_at F O inv FT le OR _ N) as N0; cbn beta in N0; rewrite bump_none in N0.
        assert (Ev : r i = v).
        { apply (sres_unique e x); [exact (nth_error_In _ _ He)|exact Lx|exact (Hr i e He)|].
          replace v with (v + J i j * 0 + s 0 * 0) by ring; exact N0. }
        rewrite Ev; exists s; split; [exact Vs|]; apply (near_all F O inv FT le OR); reflexivity. }
      assert (Jg : jet1 (fun t => rsum (List.length exprs) (fun i => g i t * g i t)) u (rsum (List.length exprs) (fun i => J i j * r i + r i * J i j))).
      { rewrite Er; apply (jet1_sum (List.length exprs) (fun i t => g i t * g i t)); intros i Hi; destruct (Hg i Hi) as (e & _ & Hj' & _); apply (jet1_mul F O inv FT le OR); exact Hj'. }
      apply least_slope in Jg.
      - rewrite (rsum_ext F O _ _ (fun i => r i * J i j + r i * J i j)) in Jg by (intros; ring); rewrite (rsum_add F O (F_R FT)) in Jg.
        set (S := rsum _ (fun i => r i * J i j)) in *; destruct (dec S 0) as [E|N]; [exact E|exfalso].
        apply (mul_nz F O inv FT (twice_one O) S (two_nz F O inv FT le OR) N); unfold twice_one; rewrite <- Jg; ring.
      - assert (N : near (fun t => forall i, (i < List.length exprs)%nat -> exists e, nth_error exprs i = Some e /\ sres e (bump F O x j t) (g i t))).
        { apply (near_below F O inv FT le OR); intros i Hi; destruct (Hg i Hi) as (e & He & _ & N); revert N; apply near_mono; intros t Ht; exists e; split; assumption. }
        assert (D : near (fun t => CalcSpec.within F O le d t)) by (exists d; split; [exact Pd|]; intros t Ht; exact Ht).
        apply (near_two F O inv FT le OR) with (2 := N) (3 := D); intros t Nt Dt.
        apply (H (bump F O x j t)); [rewrite bump_length; exact Lx| |].
        + intros i Hi; destruct (bump_by x j t i) as [-> | ->]; [exact Dt|apply (within_zero F O inv FT le OR), Pd].
        + apply (objective m _ _ Em ltac:(rewrite bump_length; exact Lx)); exists (fun i => g i t); split; [|reflexivity].
          intros i e He; destruct (Nt i) as (e' & He' & V); [apply nth_error_Some; congruence|]; congruence. }
    apply Forall_forall; intros e He; apply In_nth_error in He as (i & Hi); rewrite <- (Z i) by (apply nth_error_Some; congruence); exact (Hr i e Hi).
  Qed.
End Find.

(** ** C84: the values of the steady state are a steady state *)

(** Full statement: when [SteadyState.compute] (or [.values]) returns numbers for a model that
    has a steady state, they are one.  The routine of scipy promises points of least value near
    them.  Proved when the derivatives of the equations are independent at the point that is
    returned. *)
Theorem C84_nearby_partial :
  forall (F : Type) (O : rops F) (inv : F -> F) (le : F -> F -> Prop) (P : ops F)
    (minimize : solver -> (list F -> res F) -> list F -> res (list F)) (language : string) (how : method)
    (endog stoch : list string) (exprs : list (ast F)) (params : list (string * F)) (m : repr F) (initial x : list F) (J : nat -> nat -> F),
  is_field O inv -> is_ordered O le -> (forall x y : F, x = y \/ x <> y) ->
  readable endog stoch exprs params -> build F endog stoch exprs params = Ok m ->
  (forall s y, minimize s (least_squares F O P m) initial = Ok y -> least_nearby F O le (List.length endog) (least_squares F O P m) y) ->
  steady_values F O P minimize language how m initial = Ok x ->
  (forall i e c, nth_error exprs i = Some e -> c < List.length endog -> partial F O le (steady_residual F O P endog stoch params e) x c (J i c)) ->
  independent_rows F O (List.length exprs) (List.length endog) J ->
  is_steady F O P endog stoch exprs params x.
Proof.
  intros F O inv le P minimize language how endog stoch exprs params m initial x J FT OR dec Rd Em Hm Hx HJ Ind.
  unfold steady_values in Hx; destruct (compute language how) as [s|]; [|discriminate Hx]; cbn [bind] in Hx.
  exact (nearby_steady F O inv FT le OR dec P endog stoch exprs params Rd m x J Em (Hm s x Hx) HJ Ind).
Qed.
Print Assumptions C84_nearby_partial.

(** Proved also when the routine finds the least value of all. *)
Theorem C84_minimum_partial :
  forall (F : Type) (O : rops F) (inv : F -> F) (le : F -> F -> Prop) (P : ops F)
    (minimize : solver -> (list F -> res F) -> list F -> res (list F)) (language : string) (how : method)
    (endog stoch : list string) (exprs : list (ast F)) (params : list (string * F)) (m : repr F) (initial x : list F),
  is_field O inv -> is_ordered O le -> (forall x y : F, x = y \/ x <> y) ->
  readable endog stoch exprs params -> build F endog stoch exprs params = Ok m ->
  (forall s y, minimize s (least_squares F O P m) initial = Ok y -> least F le (List.length endog) (least_squares F O P m) y) ->
  steady_values F O P minimize language how m initial = Ok x ->
  (exists y, is_steady F O P endog stoch exprs params y) -> is_steady F O P endog stoch exprs params x.
Proof.
  intros F O inv le P minimize language how endog stoch exprs params m initial x FT OR dec Rd Em Hm Hx He.
  unfold steady_values in Hx; destruct (compute language how) as [s|]; [|discriminate Hx]; cbn [bind] in Hx.
  exact (minimum_steady F O inv FT le OR dec P endog stoch exprs params Rd m x Em (Hm s x Hx) He).
Qed.
Print Assumptions C84_minimum_partial.

(** Exactly: numbers are a steady state when the sum of squares, which is part of the results,
    is zero there. *)
Theorem C84_exact :
  forall (F : Type) (O : rops F) (inv : F -> F) (le : F -> F -> Prop) (P : ops F)
    (endog stoch : list string) (exprs : list (ast F)) (params : list (string * F)) (m : repr F) (x : list F),
  is_field O inv -> is_ordered O le -> (forall x y : F, x = y \/ x <> y) ->
  readable endog stoch exprs params -> build F endog stoch exprs params = Ok m -> List.length x = List.length endog ->
  (least_squares F O P m x = Ok (r0 O) <-> is_steady F O P endog stoch exprs params x).
Proof.
  intros F O inv le P endog stoch exprs params m x FT OR dec Rd Em Lx; exact (zero_iff F O inv FT le OR dec P endog stoch exprs params Rd m x Em Lx).
Qed.
Print Assumptions C84_exact.

(** x(-1) x^2 = 3 x - 18: the steady state is x = -3, but the square of x^3 - 3 x + 18 is
    also least near x = 1. *)
Local Open Scope Qc_scope.
Definition teq : ast Qc := Bin BSub (Bin BMul (PVar "x" (-1)) (Bin BMul (Var "x") (Var "x"))) (Bin BSub (Bin BMul (Num (q 3 1)) (Var "x")) (Num (q 18 1))).
Definition tvalue (x : Qc) : Qc := x * (x * x) - (q 3 1 * x - q 18 1).
(** x = x(-1) + 1 *)
Definition ueq : ast Qc := Bin BSub (Var "x") (Bin BAdd (PVar "x" (-1)) (Num (q 1 1))).
Definition uvalue (x : Qc) : Qc := x - (x + q 1 1).
Lemma one_readable (e : ast Qc) : e = teq \/ e = ueq -> readable ["x"] ["e"] [e] [].
Proof.
  intros He; split; [repeat constructor; cbn; intuition discriminate|].
  split; [intros x y Hx Hy; cbn [names app keys map fst In] in Hx, Hy; repeat (destruct Hx as [<-|Hx]); try contradiction; repeat (destruct Hy as [<-|Hy]); try contradiction; split; discriminate|].
  split; [|split].
  - split.
    + intros x [<-|[]]; exists 0%Z, e; split; [left; reflexivity|]; destruct He as [-> | ->]; [apply P_binl, P_binr, P_binl; constructor|apply P_binl; constructor].
    + intros x k e' Hx [<-|[]] Hp; destruct He as [-> | ->]; unfold teq, ueq in Hp; invert_tree; lia.
  - repeat (apply Forall_cons || apply Forall_nil); destruct He as [-> | ->].
    all: split; [split; [exact I|split; [cbn; tauto|cbn [functions teq ueq]; repeat apply conj; exact I]]|].
    all: split; [split; intros|split; intros x k H]; unfold teq, ueq in *; invert_tree; try (cbn; tauto); auto.
  - intros x [<-|[]]; reflexivity.
Qed.
Ltac value_tree := repeat match goal with
    | |- EvalSpec.value _ _ _ _ (Bin BSub _ _) (?a - ?b) => apply (V_bin _ _ _ _ BSub) with a b; [| |reflexivity]
    | |- EvalSpec.value _ _ _ _ (Bin BAdd _ _) (?a + ?b) => apply (V_bin _ _ _ _ BAdd) with a b; [| |reflexivity]
    | |- EvalSpec.value _ _ _ _ (Bin BMul _ _) (?a * ?b) => apply (V_bin _ _ _ _ BMul) with a b; [| |reflexivity]
    | |- EvalSpec.value _ _ _ _ (Num _) _ => constructor
    | |- EvalSpec.value _ _ _ _ (PVar _ _) _ => constructor; left; exists 0%nat; split; reflexivity
    | |- EvalSpec.value _ _ _ _ (Var _) _ => constructor; left; exists 0%nat; split; reflexivity
    end.
Lemma tvalue_is x : steady_residual Qc QO q_ops ["x"] ["e"] [] teq [x] (tvalue x).
Proof. unfold steady_residual, teq, tvalue; cbn zeta; value_tree. Qed.
Lemma uvalue_is x : steady_residual Qc QO q_ops ["x"] ["e"] [] ueq [x] (uvalue x).
Proof. unfold steady_residual, ueq, uvalue; cbn zeta; value_tree. Qed.
Lemma Qc_dec (x y : Qc) : x = y \/ x <> y. Proof. destruct (Qc_eq_dec x y); auto. Qed.
Lemma one_square e f m x v : e = teq /\ f = tvalue \/ e = ueq /\ f = uvalue -> build Qc ["x"] ["e"] [e] [] = Ok m ->
  (least_squares Qc QO q_ops m [x] = Ok v <-> v = f x * f x).
Proof.
  intros He Em; assert (Rd : readable ["x"] ["e"] [e] []) by (apply one_readable; destruct He as [[-> _]|[-> _]]; auto).
  assert (V : steady_residual Qc QO q_ops ["x"] ["e"] [] e [x] (f x)) by (destruct He as [[-> ->]|[-> ->]]; [apply tvalue_is|apply uvalue_is]).
  rewrite (objective Qc QO q_ops ["x"] ["e"] [e] [] Rd m [x] v Em eq_refl); split.
  - intros (r & Hr & ->); rewrite (sres_unique Qc QO q_ops ["x"] ["e"] [e] [] Rd e [x] (f x) (r 0%nat) (or_introl eq_refl) eq_refl V (Hr 0%nat e eq_refl)); cbn; ring.
  - intros ->; exists (fun _ => f x); split; [|cbn; ring]; intros [|[|i]] e' H; try discriminate H; injection H as <-; exact V.
Qed.
Local Close Scope Qc_scope.

(** The full statement is false: near is not everywhere; and a model without a steady state
    is given one. *)
Theorem C84_refuted :
  ~ (forall (F : Type) (O : rops F) (inv : F -> F) (le : F -> F -> Prop) (P : ops F)
       (minimize : solver -> (list F -> res F) -> list F -> res (list F)) (language : string) (how : method)
       (endog stoch : list string) (exprs : list (ast F)) (params : list (string * F)) (m : repr F) (initial x : list F),
     is_field O inv -> is_ordered O le -> (forall x y : F, x = y \/ x <> y) ->
     readable endog stoch exprs params -> build F endog stoch exprs params = Ok m ->
     (forall s y, minimize s (least_squares F O P m) initial = Ok y -> least_nearby F O le (List.length endog) (least_squares F O P m) y) ->
     steady_values F O P minimize language how m initial = Ok x ->
     (exists y, is_steady F O P endog stoch exprs params y) -> is_steady F O P endog stoch exprs params x) /\
  (exists m, build Qc ["x"] ["e"] [ueq] [] = Ok m /\ (forall y, ~ is_steady Qc QO q_ops ["x"] ["e"] [ueq] [] y) /\
     (forall y, List.length y = 1 -> least Qc Qcle 1 (least_squares Qc QO q_ops m) y) /\
     forall initial, steady_values Qc QO q_ops (fun _ _ y => Ok y) "dynare" (Other (Ok false)) m initial = Ok initial).
Proof.
  split.
  - intros H; destruct (build Qc ["x"] ["e"] [teq] []) as [m|] eqn:Em; [|vm_compute in Em; discriminate Em].
    assert (Sq := fun x v => one_square teq tvalue m x v (or_introl (conj eq_refl eq_refl)) Em).
    assert (S3 : is_steady Qc QO q_ops ["x"] ["e"] [teq] [] [q (-3) 1]).
    { split; [reflexivity|]; constructor; [|constructor].
      replace (r0 QO) with (tvalue (q (-3) 1)) by (apply Qc_is_canon; vm_compute; reflexivity); apply tvalue_is. }
    destruct (H Qc QO Qcinv Qcle q_ops (fun _ _ _ => Ok [z1]) "dynare" (Other (Ok false)) ["x"] ["e"] [teq] [] m [z0] [z1]
      Q_field Q_ordered Qc_dec (one_readable teq (or_introl eq_refl)) Em) as [_ S]; [|reflexivity|exists [q (-3) 1]; exact S3|].
    + intros _ y E; injection E as <-; split; [reflexivity|]; exists (Qcmult (tvalue z1) (tvalue z1)), z1.
      split; [apply Sq; reflexivity|]; split; [split; [discriminate|intros G; apply (f_equal this) in G; vm_compute in G; discriminate G]|].
      intros y v Ly W E; destruct y as [|y [|? ?]]; try discriminate Ly; apply Sq in E; subst v; specialize (W 0 ltac:(cbn; lia)); cbn [nth QO rsub] in W.
      destruct W as [W1 W2]; cbn [ropp QO] in W1, W2.
      assert (E : tvalue y = Qcplus (q 16 1) (Qcmult (Qcmult (Qcminus y z1) (Qcminus y z1)) (Qcplus y (q 2 1)))).
      { unfold tvalue; replace (q 3 1) with (Qcplus (Qcplus z1 z1) z1) by (apply Qc_is_canon; vm_compute; reflexivity).
        replace (q 18 1) with (Qcplus (q 16 1) (Qcplus z1 z1)) by (apply Qc_is_canon; vm_compute; reflexivity).
        replace (q 2 1) with (Qcplus z1 z1) by (apply Qc_is_canon; vm_compute; reflexivity); unfold z1; ring. }
      set (h := Qcmult (Qcmult (Qcminus y z1) (Qcminus y z1)) (Qcplus y (q 2 1))) in E.
      assert (Hh : Qcle z0 h).
      { apply (o_mul _ _ Q_ordered); [apply (sq_nonneg Qc QO Qcinv Q_field Qcle Q_ordered)|].
        apply Qcle_trans with (Qcplus (Qcopp z1) (q 2 1)); [vm_compute; discriminate|].
        apply Qcplus_le_compat; [|apply Qcle_refl]; apply Qcle_trans with (Qcplus (Qcopp z1) z1); [vm_compute; discriminate|].
        replace y with (Qcplus (Qcminus y z1) z1) by (unfold z1; ring); apply Qcplus_le_compat; [exact W1|apply Qcle_refl]. }
      rewrite E; replace (tvalue z1) with (q 16 1) by (apply Qc_is_canon; vm_compute; reflexivity).
      apply (le_sub Qc QO Qcinv Q_field Qcle Q_ordered); cbn [rsub QO r0].
      replace (Qcminus (Qcmult (Qcplus (q 16 1) h) (Qcplus (q 16 1) h)) (Qcmult (q 16 1) (q 16 1))) with (Qcmult h (Qcplus (Qcplus (q 16 1) (q 16 1)) h)) by ring.
      apply (o_mul _ _ Q_ordered); [exact Hh|]; apply (add_nonneg Qc QO Qcinv Q_field Qcle Q_ordered); [vm_compute; discriminate|exact Hh].
    + apply Forall_inv in S.
      pose proof (sres_unique Qc QO q_ops ["x"] ["e"] [teq] [] (one_readable teq (or_introl eq_refl)) teq [z1] _ _ (or_introl eq_refl) eq_refl S (tvalue_is z1)) as G.
      apply (f_equal this) in G; vm_compute in G; discriminate G.
  - destruct (build Qc ["x"] ["e"] [ueq] []) as [m|] eqn:Em; [|vm_compute in Em; discriminate Em]; exists m; split; [reflexivity|].
    assert (Sq := fun x v => one_square ueq uvalue m x v (or_intror (conj eq_refl eq_refl)) Em).
    assert (U : forall y, uvalue y = Qcopp z1) by (intros y; unfold uvalue; change (q 1 1) with z1; unfold z1; ring).
    split; [|split].
    + intros y [Ly S]; destruct y as [|y [|? ?]]; try discriminate Ly; apply Forall_inv in S.
      pose proof (sres_unique Qc QO q_ops ["x"] ["e"] [ueq] [] (one_readable ueq (or_intror eq_refl)) ueq [y] _ _ (or_introl eq_refl) eq_refl S (uvalue_is y)) as G.
      rewrite U in G; apply (f_equal this) in G; vm_compute in G; discriminate G.
    + intros y Ly; split; [exact Ly|]; destruct y as [|y [|? ?]]; try discriminate Ly; exists (Qcmult (uvalue y) (uvalue y)); split; [apply Sq; reflexivity|].
      intros y' v Ly' E; destruct y' as [|y' [|? ?]]; try discriminate Ly'; apply Sq in E; subst v; rewrite !U; apply Qcle_refl.
    + intros initial; reflexivity.
Qed.
Print Assumptions C84_refuted.

(** The model of C76 meets the hypotheses of the theorems. *)
Example C84_nonvacuous :
  is_field QO Qcinv /\ is_ordered QO Qcle /\ (forall x y : Qc, x = y \/ x <> y) /\ readable lendog lstoch lmodel lparams /\
  exists m, build Qc lendog lstoch lmodel lparams = Ok m /\
    let minimize := fun (_ : solver) (_ : list Qc -> res Qc) (_ : list Qc) => Ok lss in
    (forall s y, minimize s (least_squares Qc QO q_ops m) [z1; z1; z1] = Ok y -> least Qc Qcle 3 (least_squares Qc QO q_ops m) y) /\
    (forall s y, minimize s (least_squares Qc QO q_ops m) [z1; z1; z1] = Ok y -> least_nearby Qc QO Qcle 3 (least_squares Qc QO q_ops m) y) /\
    steady_values Qc QO q_ops minimize "dynare" (Text "nelder-mead") m [z1; z1; z1] = Ok lss /\
    (forall i e c, nth_error lmodel i = Some e -> c < 3 -> partial Qc QO Qcle (steady_residual Qc QO q_ops lendog lstoch lparams e) lss c (s_slope i lss c)) /\
    independent_rows Qc QO 3 3 (fun i c => s_slope i lss c) /\
    (exists y, is_steady Qc QO q_ops lendog lstoch lmodel lparams y).
Proof.
  split; [exact Q_field|]; split; [exact Q_ordered|]; split; [exact Qc_dec|]; split; [exact lmodel_readable|].
  destruct (build Qc lendog lstoch lmodel lparams) as [m|] eqn:Em; [|vm_compute in Em; discriminate Em]; exists m; split; [reflexivity|].
  assert (St : is_steady Qc QO q_ops lendog lstoch lmodel lparams lss) by (split; [reflexivity|exact lmodel_steady]).
  assert (Z : least_squares Qc QO q_ops m lss = Ok (r0 QO)) by (apply (C84_exact Qc QO Qcinv Qcle q_ops lendog lstoch lmodel lparams m lss Q_field Q_ordered Qc_dec lmodel_readable Em eq_refl); exact St).
  assert (N : forall y v, List.length y = 3 -> least_squares Qc QO q_ops m y = Ok v -> Qcle (r0 QO) v)
    by (intros y v Ly E; exact (square_nonneg Qc QO Qcinv Q_field Qcle Q_ordered q_ops lendog lstoch lmodel lparams lmodel_readable m y v Em Ly E)).
  cbn zeta; split; [|split; [|split; [reflexivity|split; [|split]]]].
  - intros _ y E; injection E as <-; split; [reflexivity|]; exists (r0 QO); split; [exact Z|exact N].
  - intros _ y E; injection E as <-; split; [reflexivity|]; exists (r0 QO), z1; split; [exact Z|]; split; [apply (pos_one Qc QO Qcinv Q_field Qcle Q_ordered)|].
    intros y v Ly _; exact (N y v Ly).
  - intros i e c He Hc; assert (Hi : i < 3) by (change 3 with (List.length lmodel); apply nth_error_Some; congruence).
    destruct (s_residual_slope i lss c Hi eq_refl Hc) as (C & HC); exists (s_residual i lss), (fun h => Qcmult C h); split; [apply vanishes_line|].
    apply (near_all Qc QO Qcinv Q_field Qcle Q_ordered); intros h; cbn [radd rmul QO].
    replace (Qcplus (Qcplus (s_residual i lss) (Qcmult (s_slope i lss c) h)) (Qcmult (Qcmult C h) h)) with (s_residual i (bump Qc QO lss c h)) by (apply HC).
    apply s_residual_is; [exact He|rewrite bump_length; reflexivity].
  - intros w H; pose proof (H 0 ltac:(lia)) as H0; pose proof (H 1 ltac:(lia)) as H1; pose proof (H 2 ltac:(lia)) as H2.
    cbn [Sum radd rmul QO r0 s_slope nth lss] in H0, H1, H2.
    assert (W2 : w 2 = Q2Qc 0) by (rewrite <- H2; unfold z0, z1; ring).
    rewrite W2 in H0, H1.
    assert (W0 : w 0 = Q2Qc 0) by (destruct (Qcmult_integral (w 0) (q 1 2)) as [G|G]; [rewrite <- H0; unfold z0, z1, q; change 1%Qc with (Q2Qc 1);
       replace (Q2Qc (1 # 2)) with (Qcminus (Q2Qc 1) (Q2Qc (1 # 2))) at 1 by (apply Qc_is_canon; vm_compute; reflexivity); ring|exact G|discriminate G]).
    assert (W1 : w 1 = Q2Qc 0).
    { destruct (Qcmult_integral (w 1) (q (-1) 4)) as [G|G]; [|exact G|discriminate G].
      rewrite <- H1; replace (q (-1) 4) with (Qcplus (Qcplus z1 (Qcopp (q 11 4))) (q 3 2)) by (apply Qc_is_canon; vm_compute; reflexivity); unfold z0, z1; ring. }
    intros i Hi; destruct i as [|[|[|i]]]; [exact W0|exact W1|exact W2|lia].
  - exists lss; exact St.
Qed.
Print Assumptions C84_nonvacuous.
