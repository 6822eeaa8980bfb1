(** Constraints of an occasionally binding solution: properties C80, C81 and C82. *)
From Verif Require Import Base Lexer Syntax Parser Eval EvalSpec EvalProofs Indexing Nd NdInst Mat SimSpec Occbin OccbinSpec OccbinProofs OccbinProofs2 PropParser PropOccbin
  Constraint ConstraintSpec ConstraintProofs.
Local Open Scope string_scope.
Local Open Scope list_scope.
Local Open Scope nat_scope.

Lemma pointwise {A B} (R : nat -> A -> B -> Prop) : forall l, (forall t a, nth_error l t = Some a -> exists b, R t a b) ->
  exists r, List.length r = List.length l /\ forall t a b, nth_error l t = Some a -> nth_error r t = Some b -> R t a b.
Proof.
  intros l; revert R; induction l as [|a l IH]; intros R H; [exists []; split; [reflexivity|intros [|t] ? ? Ht; discriminate]|].
  destruct (H 0 a eq_refl) as [b Hb]; destruct (IH (fun t => R (S t))) as (r & L & Hr); [intros t a' Ht; exact (H (S t) a' Ht)|].
  exists (b :: r); split; [cbn [List.length]; rewrite L; reflexivity|]; intros [|t] a' b' Ha Hb'; cbn [nth_error] in *; [congruence|exact (Hr t a' b' Ha Hb')].
Qed.
Lemma Forall2_nth {A B} (R : A -> B -> Prop) : forall l r, List.length l = List.length r ->
  (forall t a b, nth_error l t = Some a -> nth_error r t = Some b -> R a b) -> Forall2 R l r.
Proof.
  induction l as [|a l IH]; intros [|b r] L H; try discriminate; constructor; [exact (H 0 a b eq_refl eq_refl)|].
  apply IH; [injection L as L; exact L|]; intros t x y Hx Hy; exact (H (S t) x y Hx Hy).
Qed.
Lemma nth_error_combine {A B} (l : list A) : forall (r : list B) t p, nth_error (combine l r) t = Some p -> nth_error l t = Some (fst p) /\ nth_error r t = Some (snd p).
Proof. induction l as [|a l IH]; intros [|b r] [|t] p H; try discriminate; cbn [combine nth_error] in *; [injection H as <-; auto|apply IH; exact H]. Qed.

Section Mask.
  Variable V : Type.
  Variable P N : ops V.
  Variable truth : V -> option bool.
  Variable endog : list string.
  Variable params : list (string * V).
  Variable rows : list (nat -> V).
  Notation T := (List.length rows).
  (** The values of a condition, with the truth that is given. *)
  Lemma truths e (b : nat -> bool) :
    (forall t row, nth_error rows t = Some row -> condition_holds V P truth endog params row e (b t)) ->
    exists vs, Forall2 (fun row v => condition_value V P endog params row e v) rows vs /\ List.length vs = T /\
      forall t v, nth_error vs t = Some v -> truth v = Some (b t).
  Proof.
    intros H; destruct (pointwise (fun t row v => condition_value V P endog params row e v /\ truth v = Some (b t)) rows) as (vs & L & Hv).
    { intros t row Ht; exact (H t row Ht). }
    exists vs; split; [apply Forall2_nth; [congruence|intros t row v H1 H2; apply (Hv t row v H1 H2)]|]; split; [exact L|].
    intros t v Ht; assert (Hr : exists row, nth_error rows t = Some row) by (destruct (nth_error rows t) eqn:E; [eauto|]; apply nth_error_None in E; rewrite <- L in E; apply nth_error_None in E; congruence).
    destruct Hr as (row & Hr); apply (Hv t row v Hr Ht).
  Qed.
  Lemma mask_ok vs us (br ba : nat -> bool) : List.length vs = T -> List.length us = T ->
    (forall t v, nth_error vs t = Some v -> truth v = Some (br t)) -> (forall t v, nth_error us t = Some v -> truth v = Some (ba t)) ->
    as_mask V truth (combine vs us) = Ok (map (fun t => (br t, ba t)) (seq 0 T)).
  Proof.
    intros L1 L2 H1 H2; unfold as_mask; apply mapM_Forall2, Forall2_nth; [rewrite combine_length, map_length, seq_length, L1, L2; apply Nat.min_id|].
    intros t p c Hp Hc; apply nth_error_combine in Hp as [P1 P2]; rewrite (H1 t _ P1), (H2 t _ P2).
    assert (Ht : t < T) by (rewrite <- L1; apply nth_error_Some; congruence).
    rewrite (map_nth_error _ t (seq 0 T) (d := t)) in Hc; [injection Hc as <-; reflexivity|].
    rewrite (nth_error_nth' _ 0) by (rewrite seq_length; exact Ht); rewrite seq_nth by exact Ht; reflexivity.
  Qed.
End Mask.

Definition call_pair (V : Type) (P N : ops V) (endog : list string) (n : nat) (params : list (string * V)) (rows : list (nat -> V)) (p : ast V * ast V) : res (cval V * cval V) :=
  let eval e := evaluate (cval V) (array_ops V P N) (SDict (constraint_scope V endog n params rows)) (scalars V e) in
  do x <- eval (fst p); do y <- eval (snd p); Ok (x, y).
Lemma mapM_concat {A B} (f : A -> res B) hs rs : Forall2 (fun h r => mapM f h = Ok r) hs rs -> mapM f (concat hs) = Ok (concat rs).
Proof.
  induction 1 as [|h r hs rs H _ IH]; [reflexivity|]; cbn [concat]; revert r H; induction h as [|a h IHh]; intros r H; cbn [mapM app] in *.
  - injection H as <-; exact IH.
  - destruct (f a) as [b|]; [|discriminate]; cbn [bind] in *; destruct (mapM f h) as [r'|]; [|discriminate]; cbn [bind] in H; injection H as <-.
    rewrite (IHh r' eq_refl); reflexivity.
Qed.
Lemma concat_block {A} (d : A) (T : nat) (h : nat -> list A) : forall k i s t, (forall j, List.length (h j) = T) -> i < k -> t < T ->
  nth (i * T + t) (concat (map h (seq s k))) d = nth t (h (s + i)) d.
Proof.
  induction k as [|k IH]; intros i s t L Hi Ht; [lia|]; cbn [seq map concat]; destruct i as [|i].
  - rewrite app_nth1 by (rewrite L; cbn; lia); rewrite Nat.add_0_r; reflexivity.
  - rewrite app_nth2 by (rewrite L; cbn [Nat.mul]; lia); rewrite L; replace (S i * T + t - T) with (i * T + t) by (cbn [Nat.mul]; lia).
    rewrite (IH i (S s) t L) by lia; f_equal; f_equal; lia.
Qed.

(** ** C80: the conditions are judged period by period *)

(** Full statement: evaluated on a path, a constraint tells of every period whether the first
    and whether the second condition holds in it; of several constraints, those of the first
    come first.  Proved for conditions with a variable in them. *)
Theorem C80_one_partial :
  forall (V : Type) (P N : ops V) (truth : V -> option bool) (endog : list string) (n : nat) (params : list (string * V)) (rows : list (nat -> V))
    (ref alt : ast V) (binds relaxed : nat -> bool),
  agree V P N -> NoDup endog -> List.length endog = n -> NoDup (keys params) -> 1 <= List.length rows ->
  has_variable V endog params ref -> has_variable V endog params alt ->
  (forall t row, nth_error rows t = Some row ->
     condition_holds V P truth endog params row ref (binds t) /\ condition_holds V P truth endog params row alt (relaxed t)) ->
  exists cs, call_constraint V P N truth (Single V ref alt) endog n params rows = Ok cs /\ List.length cs = List.length rows /\
    forall t, t < List.length rows -> nth t cs (false, false) = (binds t, relaxed t).
Proof.
  intros V P N truth endog n params rows r a br ba AG Ne Ln Np Hr Hvr Hva H.
  destruct (truths V P truth endog params rows r br) as (vs & F1 & L1 & T1); [intros t row Ht; apply (H t row Ht)|].
  destruct (truths V P truth endog params rows a ba) as (us & F2 & L2 & T2); [intros t row Ht; apply (H t row Ht)|].
  assert (R0 : rows <> []) by (destruct rows; [cbn in Hr; lia|discriminate]).
  destruct (eval_condition V P N endog params n rows Ne Np Ln AG r R0 vs F1) as [[_ E1]|[X _]]; [|contradiction].
  destruct (eval_condition V P N endog params n rows Ne Np Ln AG a R0 us F2) as [[_ E2]|[X _]]; [|contradiction].
  exists (map (fun t => (br t, ba t)) (seq 0 (List.length rows))); unfold call_constraint; rewrite E1, E2; cbn [bind hstack]; rewrite L1, L2, Nat.eqb_refl; cbn [bind].
  split; [apply mask_ok; assumption|]; split; [rewrite map_length, seq_length; reflexivity|].
  intros t Ht; rewrite (nth_indep _ (false, false) ((fun t => (br t, ba t)) 0)) by (rewrite map_length, seq_length; exact Ht).
  rewrite (map_nth (fun t => (br t, ba t))), seq_nth by exact Ht; reflexivity.
Qed.
Print Assumptions C80_one_partial.

Theorem C80_several_partial :
  forall (V : Type) (P N : ops V) (truth : V -> option bool) (endog : list string) (n : nat) (params : list (string * V)) (rows : list (nat -> V))
    (l : list (ast V * ast V)) (binds relaxed : nat -> nat -> bool),
  agree V P N -> NoDup endog -> List.length endog = n -> NoDup (keys params) -> 1 <= List.length rows ->
  Forall (fun p => has_variable V endog params (fst p) /\ has_variable V endog params (snd p)) l ->
  (forall i p t row, nth_error l i = Some p -> nth_error rows t = Some row ->
     condition_holds V P truth endog params row (fst p) (binds i t) /\ condition_holds V P truth endog params row (snd p) (relaxed i t)) ->
  exists cs, call_constraint V P N truth (Several V l) endog n params rows = Ok cs /\ List.length cs = List.length l * List.length rows /\
    forall i t, i < List.length l -> t < List.length rows -> nth (i * List.length rows + t) cs (false, false) = (binds i t, relaxed i t).
Proof.
  intros V P N truth endog n params rows l br ba AG Ne Ln Np Hr Hv H.
  assert (R0 : rows <> []) by (destruct rows; [cbn in Hr; lia|discriminate]); set (T := List.length rows) in *.
  destruct (pointwise (fun i p x => call_pair V P N endog n params rows p = Ok (Column V (fst x), Column V (snd x)) /\ List.length (fst x) = T /\ List.length (snd x) = T /\
      (forall t v, nth_error (fst x) t = Some v -> truth v = Some (br i t)) /\ (forall t v, nth_error (snd x) t = Some v -> truth v = Some (ba i t))) l) as (xs & Lx & Hx).
  { intros i p Hp; apply nth_error_In in Hp as Hi; rewrite Forall_forall in Hv; destruct (Hv p Hi) as [Hvr Hva].
    destruct (truths V P truth endog params rows (fst p) (br i)) as (vs & F1 & L1 & T1); [intros t row Ht; apply (H i p t row Hp Ht)|].
    destruct (truths V P truth endog params rows (snd p) (ba i)) as (us & F2 & L2 & T2); [intros t row Ht; apply (H i p t row Hp Ht)|].
    destruct (eval_condition V P N endog params n rows Ne Np Ln AG (fst p) R0 vs F1) as [[_ E1]|[X _]]; [|contradiction].
    destruct (eval_condition V P N endog params n rows Ne Np Ln AG (snd p) R0 us F2) as [[_ E2]|[X _]]; [|contradiction].
    exists (vs, us); unfold call_pair; rewrite E1, E2; cbn [bind fst snd]; auto. }
  exists (concat (map (fun i => map (fun t => (br i t, ba i t)) (seq 0 T)) (seq 0 (List.length l)))).
  split; [|split].
  - unfold call_constraint; change (fun p : ast V * ast V => do x <- _; do y <- _; Ok (x, y)) with (call_pair V P N endog n params rows).
    rewrite (mapM_Forall2 _ l (map (fun x => (Column V (fst x), Column V (snd x))) xs)).
    2:{ apply Forall2_nth; [rewrite map_length; congruence|]; intros i p b Hp Hb.
        destruct (nth_error xs i) as [x|] eqn:Ex; [|exfalso; apply nth_error_None in Ex; rewrite Lx in Ex; apply nth_error_None in Ex; congruence].
        rewrite (map_nth_error _ i xs Ex) in Hb; injection Hb as <-; apply (Hx i p x Hp Ex). }
    cbn [bind].
    rewrite (mapM_Forall2 _ (map _ xs) (map (fun x => combine (fst x) (snd x)) xs)).
    2:{ apply Forall2_nth; [rewrite !map_length; reflexivity|]; intros i p b Hp Hb.
        destruct (nth_error xs i) as [x|] eqn:Ex; [|apply nth_error_None in Ex; assert (Y : nth_error (map (fun x => combine (fst x) (snd x)) xs) i = None) by (apply nth_error_None; rewrite map_length; exact Ex); congruence].
        rewrite (map_nth_error _ i xs Ex) in Hp; rewrite (map_nth_error _ i xs Ex) in Hb; injection Hp as <-; injection Hb as <-; unfold beside; cbn [fst snd one_column].
        destruct (nth_error l i) as [p|] eqn:Ep; [|apply nth_error_None in Ep; rewrite <- Lx in Ep; apply nth_error_None in Ep; congruence].
        destruct (Hx i p x Ep Ex) as (_ & X1 & X2 & _); rewrite X1, X2, Nat.eqb_refl; reflexivity. }
    cbn [bind]; unfold as_mask; apply mapM_concat, Forall2_nth; [rewrite !map_length, seq_length; exact Lx|].
    intros i h r Hh Hr'; destruct (nth_error xs i) as [x|] eqn:Ex; [|apply nth_error_None in Ex; assert (Y : nth_error (map (fun x => combine (fst x) (snd x)) xs) i = None) by (apply nth_error_None; rewrite map_length; exact Ex); congruence].
    rewrite (map_nth_error _ i xs Ex) in Hh; injection Hh as <-.
    destruct (nth_error l i) as [p|] eqn:Ep; [|apply nth_error_None in Ep; rewrite <- Lx in Ep; apply nth_error_None in Ep; congruence].
    assert (Hi : i < List.length l) by (apply nth_error_Some; congruence).
    rewrite (map_nth_error _ i (seq 0 (List.length l)) (d := i)) in Hr'; [|rewrite (nth_error_nth' _ 0) by (rewrite seq_length; exact Hi); rewrite seq_nth by exact Hi; reflexivity].
    injection Hr' as <-; destruct (Hx i p x Ep Ex) as (_ & X1 & X2 & X3 & X4); apply (mask_ok V truth rows); assumption.
  - generalize (List.length l) as k; intros k; generalize 0 at 2 as s; induction k as [|k IH]; intros s; [reflexivity|]; cbn [seq map concat]; rewrite app_length, map_length, seq_length, IH; reflexivity.
  - intros i t Hi Ht; rewrite (concat_block (false, false) T _ (List.length l) i 0 t) by (try exact Hi; try exact Ht; intros j; rewrite map_length, seq_length; reflexivity).
    rewrite (nth_indep _ (false, false) ((fun t => (br (0 + i) t, ba (0 + i) t)) 0)) by (rewrite map_length, seq_length; exact Ht).
    rewrite (map_nth (fun t => (br (0 + i) t, ba (0 + i) t))), seq_nth by exact Ht; reflexivity.
Qed.
Print Assumptions C80_several_partial.

(** Conditions without a variable in them are not judged: exactly the others are. *)
Theorem C80_needed :
  forall (V : Type) (P N : ops V) (truth : V -> option bool) (endog : list string) (n : nat) (params : list (string * V)) (rows : list (nat -> V)),
  agree V P N -> NoDup endog -> List.length endog = n -> NoDup (keys params) -> 2 <= List.length rows ->
  (forall ref alt, (forall row, In row rows -> (exists b, condition_holds V P truth endog params row ref b) /\ (exists b, condition_holds V P truth endog params row alt b)) ->
     ((exists cs, call_constraint V P N truth (Single V ref alt) endog n params rows = Ok cs) <->
      has_variable V endog params ref /\ has_variable V endog params alt)) /\
  (forall l, (forall p row, In p l -> In row rows -> (exists b, condition_holds V P truth endog params row (fst p) b) /\ (exists b, condition_holds V P truth endog params row (snd p) b)) ->
     ((exists cs, call_constraint V P N truth (Several V l) endog n params rows = Ok cs /\ List.length cs = List.length l * List.length rows) <->
      Forall (fun p => has_variable V endog params (fst p) /\ has_variable V endog params (snd p)) l)).
Proof.
  intros V P N truth endog n params rows AG Ne Ln Np Hr; assert (R0 : rows <> []) by (destruct rows; [cbn in Hr; lia|discriminate]).
  assert (Tr : forall e, (forall row, In row rows -> exists b, condition_holds V P truth endog params row e b) ->
            exists b, forall t row, nth_error rows t = Some row -> condition_holds V P truth endog params row e (b t)).
  { intros e H; destruct (pointwise (fun _ row b => condition_holds V P truth endog params row e b) rows) as (bs & Lb & Hb); [intros t row Ht; apply H, (nth_error_In _ _ Ht)|].
    exists (fun t => nth t bs false); intros t row Ht; apply (Hb t row _ Ht), nth_error_nth'; rewrite Lb; apply nth_error_Some; congruence. }
  assert (Ev : forall e, (forall row, In row rows -> exists b, condition_holds V P truth endog params row e b) ->
            (has_variable V endog params e /\ exists vs, evaluate (cval V) (array_ops V P N) (SDict (constraint_scope V endog n params rows)) (scalars V e) = Ok (Column V vs) /\ List.length vs = List.length rows) \/
            (~ has_variable V endog params e /\ exists v, evaluate (cval V) (array_ops V P N) (SDict (constraint_scope V endog n params rows)) (scalars V e) = Ok (Scalar V v))).
  { intros e H; destruct (Tr e H) as (b & Hb); destruct (truths V P truth endog params rows e b Hb) as (vs & F1 & L1 & _).
    destruct (eval_condition V P N endog params n rows Ne Np Ln AG e R0 vs F1) as [[X E]|(X & v & E & _)]; [left|right]; split; eauto. }
  split.
  - intros r a H; split.
    + intros (cs & E); unfold call_constraint in E.
      destruct (Ev r (fun row Hi => proj1 (H row Hi))) as [[X1 (vs & E1 & _)]|[X1 (v & E1)]]; destruct (Ev a (fun row Hi => proj2 (H row Hi))) as [[X2 (us & E2 & _)]|[X2 (u & E2)]];
        rewrite E1, E2 in E; cbn [bind hstack] in E; try discriminate; split; assumption.
    + intros [Hvr Hva]; destruct (Tr r (fun row Hi => proj1 (H row Hi))) as (br & Hbr); destruct (Tr a (fun row Hi => proj2 (H row Hi))) as (ba & Hba).
      destruct (C80_one_partial V P N truth endog n params rows r a br ba AG Ne Ln Np ltac:(lia) Hvr Hva) as (cs & E & _); [intros t row Ht; auto|]; eauto.
  - intros l H; split.
    + intros (cs & E & Lc); unfold call_constraint in E; change (fun p : ast V * ast V => do x <- _; do y <- _; Ok (x, y)) with (call_pair V P N endog n params rows) in E.
      destruct (mapM (call_pair V P N endog n params rows) l) as [bs|] eqn:Eb; [|discriminate]; cbn [bind] in E.
      destruct (mapM (fun p => beside V (fst p) (snd p)) bs) as [hs|] eqn:Eh; [|discriminate]; cbn [bind] in E; unfold as_mask in E.
      assert (E' : List.length (concat hs) = List.length l * List.length rows) by (rewrite <- Lc; apply mapM_ok in E; clear - E; induction E; cbn [List.length]; congruence); clear E Lc cs.
      assert (G : List.length (concat hs) <= List.length l * List.length rows /\ (List.length (concat hs) = List.length l * List.length rows -> Forall (fun p => has_variable V endog params (fst p) /\ has_variable V endog params (snd p)) l)).
      2:{ apply G; exact E'. }
      clear E'; revert bs hs Eb Eh; induction l as [|p l IH]; intros bs hs Eb Eh; cbn [mapM] in Eb.
      { injection Eb as <-; cbn [mapM] in Eh; injection Eh as <-; split; [cbn; lia|constructor]. }
      destruct (call_pair V P N endog n params rows p) as [b|] eqn:Ep; [|discriminate]; cbn [bind] in Eb; destruct (mapM _ l) as [bs'|] eqn:Eb'; [|discriminate]; cbn [bind] in Eb; injection Eb as <-.
      cbn [mapM] in Eh; destruct (beside V (fst b) (snd b)) as [h|] eqn:Hh; [|discriminate]; cbn [bind] in Eh; destruct (mapM _ bs') as [hs'|] eqn:Eh'; [|discriminate]; cbn [bind] in Eh; injection Eh as <-.
      destruct (IH (fun q row Hq => H q row (or_intror Hq)) bs' hs' eq_refl Eh') as [G1 G2]; cbn [concat List.length]; rewrite app_length; cbn [Nat.mul].
      unfold call_pair in Ep.
      destruct (Ev (fst p) (fun row Hi => proj1 (H p row (or_introl eq_refl) Hi))) as [[X1 (vs & E1 & L1)]|[X1 (v & E1)]]; destruct (Ev (snd p) (fun row Hi => proj2 (H p row (or_introl eq_refl) Hi))) as [[X2 (us & E2 & L2)]|[X2 (u & E2)]];
        rewrite E1, E2 in Ep; cbn [bind] in Ep; injection Ep as <-; unfold beside in Hh; cbn [fst snd one_column List.length] in Hh.
      * rewrite L1, L2, Nat.eqb_refl in Hh; injection Hh as <-; rewrite combine_length, L1, L2, Nat.min_id; split; [lia|]; intros Q; constructor; [split; assumption|apply G2; lia].
      * rewrite L1 in Hh; destruct (Nat.eqb_spec (List.length rows) 1); [lia|discriminate].
      * rewrite L2 in Hh; destruct (Nat.eqb_spec 1 (List.length rows)); [lia|discriminate].
      * injection Hh as <-; cbn [combine List.length]; split; [lia|intros Q; lia].
    + intros Hv.
      destruct (pointwise (fun i p (b : (nat -> bool) * (nat -> bool)) => forall t row, nth_error rows t = Some row -> condition_holds V P truth endog params row (fst p) (fst b t) /\ condition_holds V P truth endog params row (snd p) (snd b t)) l) as (bs & Lb & Hb).
      { intros i p Hp; apply nth_error_In in Hp; destruct (Tr (fst p) (fun row Hi => proj1 (H p row Hp Hi))) as (br & Hbr); destruct (Tr (snd p) (fun row Hi => proj2 (H p row Hp Hi))) as (ba & Hba); exists (br, ba); auto. }
      destruct (C80_several_partial V P N truth endog n params rows l (fun i => fst (nth i bs (fun _ => false, fun _ => false))) (fun i => snd (nth i bs (fun _ => false, fun _ => false))) AG Ne Ln Np ltac:(lia) Hv) as (cs & E & L & _); [|eauto].
      intros i p t row Hp Ht; apply (Hb i p _ Hp); [apply nth_error_nth'; rewrite Lb; apply nth_error_Some; congruence|exact Ht].
Qed.
Print Assumptions C80_needed.

Section Functional.
  Variable V : Type.
  Variable P : ops V.
  Variable truth : V -> option bool.
  Variable endog : list string.
  Variable params : list (string * V).
  Hypothesis Nd : NoDup endog.
  Lemma condition_fun row e v : condition_value V P endog params row e v -> forall w, condition_value V P endog params row e w -> v = w.
  Proof.
    unfold condition_value; induction 1 as [v|x v H|x k v H|o e v w _ IH E|o l r v v' w _ IHl _ IHr E|o l r v v' w _ IHl _ IHr E|f g e v w Hg _ IH E]; intros u Hu; inversion Hu; subst.
    - reflexivity.
    - unfold named in *; destruct (lookup x params); [congruence|]; destruct H as (j & Hj & ->), H1 as (j' & Hj' & ->); f_equal.
      apply (proj1 (NoDup_nth_error endog) Nd); [apply nth_error_Some; congruence|congruence].
    - contradiction.
    - match goal with X : EvalSpec.value _ _ _ _ e ?z |- _ => apply IH in X; subst z end; congruence.
    - repeat match goal with X : EvalSpec.value _ _ _ _ l ?z |- _ => apply IHl in X; subst z | X : EvalSpec.value _ _ _ _ r ?z |- _ => apply IHr in X; subst z end; congruence.
    - repeat match goal with X : EvalSpec.value _ _ _ _ l ?z |- _ => apply IHl in X; subst z | X : EvalSpec.value _ _ _ _ r ?z |- _ => apply IHr in X; subst z end; congruence.
    - match goal with X : EvalSpec.value _ _ _ _ e ?z |- _ => apply IH in X; subst z end.
      apply language_function in Hg as [_ ->]; match goal with X : In (f, _) _ |- _ => apply language_function in X as [_ ->] end; congruence.
  Qed.
  Lemma holds_fun row e b c : condition_holds V P truth endog params row e b -> condition_holds V P truth endog params row e c -> b = c.
  Proof. intros (v & H1 & T1) (w & H2 & T2); rewrite (condition_fun row e v H1 w H2) in T1; congruence. Qed.
End Functional.

(** ** C81: which problems are solved *)
Definition occbin_run {V} (float_of : text -> option V) (trunc : V -> option Z) (a : cargument) (regimes : option nat) : res occbin_plan :=
  do cm <- occbin_solution float_of trunc a regimes; plan (constraint_len V (fst cm)) (snd cm).
(** A solution is computed exactly for one pair of conditions (alone, or as a list of one pair)
    with at least one alternative regime, the first of which is used, and for a list of two
    pairs with at least three: those for the first, for the second and for both constraints. *)
Theorem C81_exact :
  forall (V : Type) (float_of : text -> option V) (trunc : V -> option Z) (a : cargument) (regimes : option nat) (pl : occbin_plan),
  let reads t := exists e, parse_string V float_of trunc BaseStandard t = Ok e in
  occbin_run float_of trunc a regimes = Ok pl <->
  exists m, regimes = Some m /\
    ((pl = OneAlternative 0 1 /\ 2 <= m /\ exists r s, (a = AConditions [r; s] \/ a = APairs [[r; s]]) /\ reads r /\ reads s) \/
     (pl = ThreeAlternatives 0 1 2 3 /\ 4 <= m /\ exists r s r' s', a = APairs [[r; s]; [r'; s']] /\ reads r /\ reads s /\ reads r' /\ reads s')).
Proof.
  intros V fo tr a regs pl reads.
  assert (PP : forall c p, parse_pair V fo tr c = Ok p -> exists r s, c = [r; s] /\ reads r /\ reads s).
  { intros [|r [|s [|? ?]]] p H; try discriminate; cbn in H; destruct (parse_string _ _ _ _ r) as [e|] eqn:E1; [|discriminate]; cbn [bind] in H; destruct (parse_string _ _ _ _ s) as [f|] eqn:E2; [|discriminate].
    exists r, s; split; [reflexivity|split; eexists; eassumption]. }
  assert (PQ : forall r s, reads r -> reads s -> exists p, parse_pair V fo tr [r; s] = Ok p).
  { intros r s (e & E) (f & E'); cbn; rewrite E; cbn [bind]; rewrite E'; cbn [bind]; eauto. }
  unfold occbin_run, occbin_solution; split.
  - intros H; apply bind_ok in H as ([c m] & H1 & H2); apply bind_ok in H1 as (c' & H1 & H3); destruct regs as [m'|]; [|discriminate]; injection H3 as <- <-; cbn [fst snd] in H2.
    exists m'; split; [reflexivity|]; unfold plan in H2; destruct a as [t|l|l|]; try discriminate; cbn [make_constraint] in H1.
    + destruct l as [|t l]; [discriminate|]; apply bind_ok in H1 as (p & H1 & H3); injection H3 as <-; apply PP in H1 as (r & s & E & R1 & R2); rewrite E; cbn [constraint_len Nat.eqb] in H2.
      destruct (Nat.leb_spec 2 m'); [|discriminate]; injection H2 as <-; left; split; [reflexivity|]; split; [assumption|]; exists r, s; split; [left; reflexivity|split; assumption].
    + destruct l as [|c l]; [discriminate|]; apply bind_ok in H1 as (ps & H1 & H3); injection H3 as <-; apply mapM_ok in H1; inversion H1 as [|? p ? ps' H3 H4]; subst; apply PP in H3 as (r & s & -> & R1 & R2).
      cbn [constraint_len List.length] in H2; destruct H4 as [|c' p' l ps' H5 H6]; cbn [List.length Nat.eqb] in H2.
      * destruct (Nat.leb_spec 2 m'); [|discriminate]; injection H2 as <-; left; split; [reflexivity|]; split; [assumption|]; exists r, s; split; [right; reflexivity|split; assumption].
      * destruct (Nat.leb_spec 4 m'); [|discriminate]; apply PP in H5 as (r' & s' & -> & R3 & R4).
        destruct H6; [|discriminate]; injection H2 as <-; right; split; [reflexivity|]; split; [assumption|]; exists r, s, r', s'; repeat (split; [assumption || reflexivity|]); assumption.
  - intros (m & -> & [(-> & Hm & r & s & Ha & R1 & R2)|(-> & Hm & r & s & r' & s' & -> & R1 & R2 & R3 & R4)]).
    + destruct (PQ r s R1 R2) as (p & E); destruct Ha as [->| ->]; cbn [make_constraint mapM]; rewrite E; cbn [bind fst snd constraint_len List.length Nat.eqb plan]; unfold plan; cbn [Nat.eqb]; destruct (Nat.leb_spec 2 m); [reflexivity|lia|reflexivity|lia].
    + destruct (PQ r s R1 R2) as (p & E); destruct (PQ r' s' R3 R4) as (p' & E'); cbn [make_constraint mapM]; rewrite E; cbn [bind]; rewrite E'; cbn [bind fst snd constraint_len List.length]; unfold plan; cbn [Nat.eqb]; destruct (Nat.leb_spec 4 m); [reflexivity|lia].
Qed.
Print Assumptions C81_exact.
(** A Constraint, which is one of the types that the solution documents, is never accepted. *)
Theorem C81_refuted :
  forall (V : Type) (float_of : text -> option V) (trunc : V -> option Z) (regimes : option nat), occbin_run float_of trunc AConstraint regimes = Err TypeErr.
Proof. reflexivity. Qed.
Print Assumptions C81_refuted.

(** ** C82: a simulation without warnings obeys the conditions as they are written *)

(** A path of deviations as the rows that a constraint is evaluated on. *)
Definition as_rows {F V} (num : F -> V) (g : list (vec F)) : list (nat -> V) := map (fun v j => num (v j)) g.
(** The conditions of the constraints, in order. *)
Definition pairs {V} (c : conditions V) : list (ast V * ast V) := match c with Single _ r a => [(r, a)] | Several _ l => l end.
Lemma judged (V : Type) (P N : ops V) (truth : V -> option bool) (endog : list string) (params : list (string * V)) (rows : list (nat -> V)) (c : conditions V) cs hypo :
  let T := List.length rows in let l := pairs c in
  agree V P N -> NoDup endog -> NoDup (keys params) -> 2 <= T -> List.length hypo = List.length l * T -> List.length cs = List.length l * T ->
  (forall p row, In p l -> In row rows -> (exists b, condition_holds V P truth endog params row (fst p) b) /\ exists b, condition_holds V P truth endog params row (snd p) b) ->
  call_constraint V P N truth c endog (List.length endog) params rows = Ok cs ->
  (consistent hypo cs <-> forall i p u row, nth_error l i = Some p -> nth_error rows u = Some row ->
     (condition_holds V P truth endog params row (fst p) true -> nth (i * T + u) hypo false = true) /\ (nth (i * T + u) hypo false = true -> condition_holds V P truth endog params row (snd p) false)).
Proof.
  intros T l AG Ne Np Hr Lh Lc Ht E.
  destruct (C80_needed V P N truth endog (List.length endog) params rows AG Ne eq_refl Np Hr) as [N1 N2].
  assert (Hv : Forall (fun p => has_variable V endog params (fst p) /\ has_variable V endog params (snd p)) l).
  { subst l; destruct c as [r a|l]; cbn [pairs] in *.
    - constructor; [|constructor]; apply (N1 r a); [intros row Hi; exact (Ht (r, a) row (or_introl eq_refl) Hi)|eauto].
    - apply (N2 l Ht); eauto. }
  assert (B : exists br ba, forall i p t row, nth_error l i = Some p -> nth_error rows t = Some row -> condition_holds V P truth endog params row (fst p) (br i t) /\ condition_holds V P truth endog params row (snd p) (ba i t)).
  { destruct (pointwise (fun i p (b : (nat -> bool) * (nat -> bool)) => forall t row, nth_error rows t = Some row -> condition_holds V P truth endog params row (fst p) (fst b t) /\ condition_holds V P truth endog params row (snd p) (snd b t)) l) as (bs & Lb & Hb).
    { intros i p Hp; apply nth_error_In in Hp.
      destruct (pointwise (fun _ row b => condition_holds V P truth endog params row (fst p) (fst b) /\ condition_holds V P truth endog params row (snd p) (snd b)) rows) as (bs & Lb & Hb).
      { intros t row H; destruct (Ht p row Hp (nth_error_In _ _ H)) as [(b & Hb) (b' & Hb')]; exists (b, b'); auto. }
      exists ((fun t => fst (nth t bs (false, false))), (fun t => snd (nth t bs (false, false)))); intros t row H; apply (Hb t row _ H), nth_error_nth'; rewrite Lb; apply nth_error_Some; congruence. }
    exists (fun i => fst (nth i bs (fun _ => false, fun _ => false))), (fun i => snd (nth i bs (fun _ => false, fun _ => false))).
    intros i p t row Hp Hrow; apply (Hb i p _ Hp); [apply nth_error_nth'; rewrite Lb; apply nth_error_Some; congruence|exact Hrow]. }
  destruct B as (br & ba & HB).
  assert (Q : forall i t, i < List.length l -> t < T -> nth (i * T + t) cs (false, false) = (br i t, ba i t)).
  { subst l; destruct c as [r a|l]; cbn [pairs] in *.
    - inversion Hv as [|? ? [V1 V2] _]; subst.
      destruct (C80_one_partial V P N truth endog (List.length endog) params rows r a (br 0) (ba 0) AG Ne eq_refl Np ltac:(lia) V1 V2) as (cs' & E' & _ & G).
      { intros t row Hrow; exact (HB 0 (r, a) t row eq_refl Hrow). }
      rewrite E in E'; injection E' as <-; intros [|i] t Hi Hlt; [exact (G t Hlt)|cbn in Hi; lia].
    - destruct (C80_several_partial V P N truth endog (List.length endog) params rows l br ba AG Ne eq_refl Np ltac:(lia) Hv HB) as (cs' & E' & _ & G).
      rewrite E in E'; injection E' as <-; exact G. }
  unfold consistent; split.
  - intros [_ H] i p u row Hp Hrow; assert (Hu : u < T) by (apply nth_error_Some; congruence); assert (Hi : i < List.length l) by (apply nth_error_Some; congruence).
    specialize (H (i * T + u)); rewrite (Q i u Hi Hu) in H; cbn [fst snd] in H; destruct (H ltac:(rewrite Lh; nia)) as [H1 H2]; destruct (HB i p u row Hp Hrow) as [B1 B2].
    split; [intros K; apply H1; exact (holds_fun V P truth endog params Ne row _ _ _ B1 K)|intros K; rewrite <- (H2 K); exact B2].
  - intros H; split; [congruence|]; intros w Hw; rewrite Lh in Hw.
    assert (Hu : w mod T < T) by (apply Nat.mod_upper_bound; lia); assert (Hi : w / T < List.length l) by (apply Nat.div_lt_upper_bound; [lia|rewrite Nat.mul_comm; exact Hw]).
    assert (Ew : w = w / T * T + w mod T) by (rewrite Nat.mul_comm; apply Nat.div_mod; lia); revert Hu Hi Ew; generalize (w / T) (w mod T); intros i u Hu Hi ->.
    rewrite (Q i u Hi Hu); cbn [fst snd]; apply nth_error_Some in Hu; destruct (nth_error rows u) as [row|] eqn:Hrow; [|congruence]; apply nth_error_Some in Hi; destruct (nth_error l i) as [p|] eqn:Hp; [|congruence].
    destruct (H i p u row Hp Hrow) as [H1 H2]; destruct (HB i p u row Hp Hrow) as [B1 B2]; split; [intros K; rewrite K in B1; exact (H1 B1)|intros K; exact (holds_fun V P truth endog params Ne row _ _ _ B2 (H2 K))].
Qed.
Lemma row_of {F V} (num : F -> V) g u row : nth_error (as_rows num g) u = Some row <-> exists v, nth_error g u = Some v /\ row = (fun j => num (v j)).
Proof.
  unfold as_rows; revert u; induction g as [|v g IH]; intros [|u]; cbn [map nth_error].
  - split; [discriminate|intros (v & H & _); discriminate].
  - split; [discriminate|intros (v & H & _); discriminate].
  - split; [intros H; injection H as <-; eauto|intros (v' & H & ->); injection H as ->; reflexivity].
  - apply IH.
Qed.

(** [rows], [warns] and the guess [hypo] with its path [g] are as in C51.  There is no warning
    exactly when, in every period of [g], the alternative regime is assumed if the first
    condition holds, and the second condition does not hold if it is assumed. *)
Theorem C82_one_constraint :
  forall (F : Type) (O : rops F) (inv : nat -> mat F -> res (mat F)) (ref alt : regime F) (gy gu : nd F)
    (V : Type) (P N : ops V) (truth : V -> option bool) (num : F -> V) (endog : list string) (params : list (string * V)) (binds relaxes : ast V) (c : conditions V)
    (ex : exog_index) (shocks : shock_array F) (init : option (vec F)) (periods : option nat) (max_iter : nat)
    (r a : system F) (k : nat) (gyd gud : mat F) (rows : list (vec F)) (warns : list bool) (out : list (list F)),
  let n := n_endog (g_index F ref) in
  let p := number_of_periods F periods shocks in
  let x0 := match init with Some v => v | None => fun _ => r0 O end in
  let holds (v : vec F) := condition_holds V P truth endog params (fun j => num (v j)) in
  is_ring O -> inverts F O n inv ->
  rule_matrix F O (g_index F ref) gy = Ok gyd -> shock_matrix F (g_index F ref) gu = Ok (k, gud) ->
  partition F O (g_index F ref) (g_jac F ref) (fun _ => r0 O) = Ok r ->
  partition F O (g_index F alt) (g_jac F alt) (g_resid F alt) = Ok a ->
  solves F O n k r gyd gud ->
  agree V P N -> NoDup endog -> List.length endog = n -> NoDup (keys params) ->
  c = Single V binds relaxes \/ c = Several V [(binds, relaxes)] ->
  (forall v, (exists b, holds v binds b) /\ exists b, holds v relaxes b) ->
  occbin_one F O inv ref alt gy gu (fun g => call_constraint V P N truth c endog n params (as_rows num g)) ex shocks init periods max_iter = Ok (rows, warns, out) ->
  List.length rows = p /\ List.length warns = List.length (shock_rows F shocks) /\
  forall t, t < List.length (shock_rows F shocks) -> exists hypo e g,
    shock_vector F O (positions_of ex) (nth t (shock_rows F shocks) []) e /\
    List.length hypo = S p /\ List.length g = S p /\
    (nth t warns false = false <-> forall u v, nth_error g u = Some v ->
       (holds v binds true -> nth u hypo false = true) /\ (nth u hypo false = true -> holds v relaxes false)) /\
    value F x0 rows (S t) = nth 0 g x0 /\
    (S t = List.length (shock_rows F shocks) -> forall u, t + u < p -> value F x0 rows (S (t + u)) = nth u g x0) /\
    exists s, final_spell hypo p s /\ forall u, u < p ->
      equations F O n k (effective (fun u => if nth u hypo false then a else r) a r s u)
        (value F (value F x0 rows t) g u) (value F (value F x0 rows t) g (S u)) (value F (value F x0 rows t) g (S (S u))) (impulse F O e u).
Proof.
  intros F O inv ref alt gy gu V P N truth num endog params cb cr c ex shocks init periods max_iter r a k gyd gud rows warns out n p x0 holds RT Hi Ey Eu Er Ea Sol AG Ne Ln Np Hc Ht H.
  destruct (C51_one_constraint F O inv ref alt gy gu _ ex shocks init periods max_iter r a k gyd gud rows warns out RT Hi Ey Eu Er Ea Sol H) as (L & W & R).
  split; [exact L|]; split; [exact W|]; intros t Hlt; destruct (R t Hlt) as (hypo & e & g & cs & R1 & R2 & R3 & R4 & Lc & R5 & R6 & R7 & s & R8 & R9).
  fold p in R2, R3, Lc, R7, R8, R9; exists hypo, e, g; split; [exact R1|]; split; [exact R2|]; split; [exact R3|]; split; [|split; [exact R6|split; [exact R7|exists s; split; [exact R8|exact R9]]]].
  assert (Hp : 1 <= p) by (destruct R8 as [R8 _]; lia).
  assert (Lr : List.length (as_rows num g) = S p) by (unfold as_rows; rewrite map_length; exact R3).
  assert (Lp : List.length (pairs c) = 1) by (destruct Hc as [->| ->]; reflexivity).
  assert (Pc : forall i q, nth_error (pairs c) i = Some q <-> i = 0 /\ q = (cb, cr)).
  { destruct Hc as [->| ->]; intros [|[|i]] q; cbn [pairs nth_error]; (split; [intros K; try discriminate; injection K as <-; auto|intros [K ->]; try discriminate K; reflexivity]). }
  rewrite R5; rewrite <- Ln in R4; rewrite (judged V P N truth endog params (as_rows num g) c cs hypo AG Ne Np ltac:(lia) ltac:(rewrite Lp, Lr; lia) ltac:(rewrite Lp, Lr; lia)); [| |exact R4].
  - split.
    + intros K u v Hv; apply (K 0 (cb, cr) u (fun j => num (v j))); [apply Pc; auto|apply row_of; eauto].
    + intros K i q u row Hq Hrow; apply Pc in Hq as [-> ->]; apply row_of in Hrow as (v & Hv & ->); exact (K u v Hv).
  - intros q row Hq Hrow; apply In_nth_error in Hq as (i & Hq); apply Pc in Hq as [_ ->]; apply in_map_iff in Hrow as (v & <- & _); apply Ht.
Qed.
Print Assumptions C82_one_constraint.

Theorem C82_two_constraints :
  forall (F : Type) (O : rops F) (inv : nat -> mat F -> res (mat F)) (ref alt0 alt1 dbl : regime F) (gy gu : nd F)
    (V : Type) (P N : ops V) (truth : V -> option bool) (num : F -> V) (endog : list string) (params : list (string * V)) (binds0 relaxes0 binds1 relaxes1 : ast V)
    (ex : exog_index) (shocks : shock_array F) (init : option (vec F)) (periods : option nat) (max_iter : nat) (restrained : bool)
    (r a0 a1 d : system F) (k : nat) (gyd gud : mat F) (rows : list (vec F)) (warns : list bool) (out : list (list F)),
  let n := n_endog (g_index F ref) in
  let p := number_of_periods F periods shocks in
  let x0 := match init with Some v => v | None => fun _ => r0 O end in
  let holds (v : vec F) := condition_holds V P truth endog params (fun j => num (v j)) in
  is_ring O -> inverts F O n inv ->
  rule_matrix F O (g_index F ref) gy = Ok gyd -> shock_matrix F (g_index F ref) gu = Ok (k, gud) ->
  partition F O (g_index F ref) (g_jac F ref) (fun _ => r0 O) = Ok r ->
  partition F O (g_index F alt0) (g_jac F alt0) (g_resid F alt0) = Ok a0 ->
  partition F O (g_index F alt1) (g_jac F alt1) (g_resid F alt1) = Ok a1 ->
  partition F O (g_index F dbl) (g_jac F dbl) (g_resid F dbl) = Ok d ->
  solves F O n k r gyd gud ->
  agree V P N -> NoDup endog -> List.length endog = n -> NoDup (keys params) ->
  (forall v e, In e [binds0; relaxes0; binds1; relaxes1] -> exists b, holds v e b) ->
  occbin_two F O inv ref alt0 alt1 dbl gy gu (fun g => call_constraint V P N truth (Several V [(binds0, relaxes0); (binds1, relaxes1)]) endog n params (as_rows num g)) ex shocks init periods max_iter restrained = Ok (rows, warns, out) ->
  List.length rows = p /\ List.length warns = List.length (shock_rows F shocks) /\
  forall t, t < List.length (shock_rows F shocks) -> exists hypo e g,
    shock_vector F O (positions_of ex) (nth t (shock_rows F shocks) []) e /\
    List.length hypo = S p /\ List.length g = S p /\
    (nth t warns false = false <-> forall u v h, nth_error g u = Some v -> nth_error hypo u = Some h ->
       (holds v binds0 true -> fst h = true) /\ (fst h = true -> holds v relaxes0 false) /\
       (holds v binds1 true -> snd h = true) /\ (snd h = true -> holds v relaxes1 false)) /\
    value F x0 rows (S t) = nth 0 g x0 /\
    (S t = List.length (shock_rows F shocks) -> forall u, t + u < p -> value F x0 rows (S (t + u)) = nth u g x0) /\
    (nth (p - 1) hypo (false, false) = (false, false) -> forall u, u < p ->
      equations F O n k (regime_of r a0 a1 d (nth u hypo (false, false)))
        (value F (value F x0 rows t) g u) (value F (value F x0 rows t) g (S u)) (value F (value F x0 rows t) g (S (S u))) (impulse F O e u)) /\
    exists s0 s1, final_spell (map fst hypo) p s0 /\ final_spell (map snd hypo) p s1 /\ let s := Nat.max s0 s1 in forall u, u < p ->
      equations F O n k (effective (fun u => regime_of r a0 a1 d (nth u hypo (false, false))) (before_last2 a0 a1 d (nth (s - 1) hypo (false, false))) r s u)
        (value F (value F x0 rows t) g u) (value F (value F x0 rows t) g (S u)) (value F (value F x0 rows t) g (S (S u))) (impulse F O e u).
Proof.
  intros F O inv ref alt0 alt1 dbl gy gu V P N truth num endog params cb0 cr0 cb1 cr1 ex shocks init periods max_iter restrained r a0 a1 d k gyd gud rows warns out n p x0 holds RT Hi Ey Eu Er E0 E1 Ed Sol AG Ne Ln Np Ht H.
  destruct (C51_two_constraints F O inv ref alt0 alt1 dbl gy gu _ ex shocks init periods max_iter restrained r a0 a1 d k gyd gud rows warns out RT Hi Ey Eu Er E0 E1 Ed Sol H) as (L & W & R).
  split; [exact L|]; split; [exact W|]; intros t Hlt; destruct (R t Hlt) as (hypo & e & g & cs & R1 & R2 & R3 & R4 & Lc & R5 & R6 & R7 & R8).
  fold p in R2, R3, Lc, R7, R8; exists hypo, e, g; split; [exact R1|]; split; [exact R2|]; split; [exact R3|]; split; [|split; [exact R6|split; [exact R7|exact R8]]].
  assert (Hp : 1 <= p).
  { unfold occbin_two in H; destruct (check_shocks F ex shocks); [|discriminate]; cbn [bind] in H; fold p in L; unfold p, number_of_periods in *; destruct periods as [[|m]|]; lia. }
  assert (Lr : List.length (as_rows num g) = S p) by (unfold as_rows; rewrite map_length; exact R3).
  set (l := [(cb0, cr0); (cb1, cr1)]) in *.
  assert (Lf : List.length (map fst hypo ++ map snd hypo) = 2 * S p) by (rewrite app_length, !map_length, R2; lia).
  rewrite R5; rewrite <- Ln in R4; rewrite (judged V P N truth endog params (as_rows num g) (Several V l) cs _ AG Ne Np ltac:(lia) ltac:(rewrite Lf, Lr; reflexivity) ltac:(rewrite Lr; exact Lc)); [| |exact R4].
  - cbn [pairs]; rewrite Lr.
    assert (X : forall u h, nth_error hypo u = Some h -> nth (0 * S p + u) (map fst hypo ++ map snd hypo) false = fst h /\ nth (1 * S p + u) (map fst hypo ++ map snd hypo) false = snd h).
    { intros u h Hh; assert (Hu : u < S p) by (rewrite <- R2; apply nth_error_Some; congruence); split.
      - rewrite app_nth1 by (rewrite map_length; lia); apply nth_error_nth; apply map_nth_error; exact Hh.
      - rewrite app_nth2 by (rewrite map_length; lia); rewrite map_length, R2; replace (1 * S p + u - S p) with u by lia; apply nth_error_nth; apply map_nth_error; exact Hh. }
    split.
    + intros K u v h Hv Hh; destruct (X u h Hh) as [X0 X1].
      assert (Hrow : nth_error (as_rows num g) u = Some (fun j => num (v j))) by (apply row_of; eauto).
      destruct (K 0 (cb0, cr0) u _ eq_refl Hrow) as [K1 K2]; destruct (K 1 (cb1, cr1) u _ eq_refl Hrow) as [K3 K4].
      rewrite X0 in K1, K2; rewrite X1 in K3, K4; repeat (split; [assumption|]); assumption.
    + intros K i q u row Hq Hrow; apply row_of in Hrow as (v & Hv & ->).
      assert (Hh : exists h, nth_error hypo u = Some h).
      { destruct (nth_error hypo u) as [h|] eqn:Hh; [eauto|]; apply nth_error_None in Hh; assert (u < List.length g) by (apply nth_error_Some; congruence); lia. }
      destruct Hh as (h & Hh); destruct (X u h Hh) as [X0 X1]; destruct (K u v h Hv Hh) as (K1 & K2 & K3 & K4).
      destruct i as [|[|[|i]]]; cbn [nth_error l] in Hq; try discriminate; injection Hq as <-; [rewrite X0|rewrite X1]; split; assumption.
  - intros q row Hq Hrow; apply in_map_iff in Hrow as (v & <- & _); destruct Hq as [<-|[<-|[]]]; split; apply Ht; cbn [In fst snd]; auto.
Qed.
Print Assumptions C82_two_constraints.

(** ** Numbers and booleans *)
Inductive number := NZ (z : Z) | NB (b : bool).
Definition number_ops : ops number := Ops number (NZ (-999)) (fun _ => false)
  (fun o a b => match a, b with NZ x, NZ y => match o with BAdd => Ok (NZ (Z.add x y)) | BSub => Ok (NZ (Z.sub x y)) | BMul => Ok (NZ (Z.mul x y)) | _ => Err GenericErr end | _, _ => Err TypeErr end)
  (fun o a => match a with NZ x => Ok (NZ (match o with UPos => x | UNeg => Z.opp x end)) | NB _ => Err TypeErr end)
  (fun o a b => match a, b with
     | NZ x, NZ y => Ok (NB (match o with CLt => Z.ltb x y | CLe => Z.leb x y | CGt => Z.ltb y x | CGe => Z.leb y x | CEq => Z.eqb x y end))
     | _, _ => Err TypeErr end)
  (fun _ _ => Err GenericErr).
Definition number_of (t : text) : option number := option_map NZ (dec_of t).
Definition number_trunc (v : number) : option Z := match v with NZ z => Some z | NB _ => None end.
Definition number_truth (v : number) : option bool := match v with NZ _ => None | NB b => Some b end.
Definition number_row (x y : Z) : nat -> number := fun j => NZ (match j with 0 => x | _ => y end).

(** Two constraints, from texts, on three periods of x and y. *)
Definition two_texts : cargument := APairs [[chars "x < r"; chars "2*x - y > 1"]; [chars "y >= 3"; chars "y < 3"]].
Definition two_pairs : list (ast number * ast number) :=
  [(Comp CLt (Var "x") (Var "r"), Comp CGt (Bin BSub (Bin BMul (Num (NZ 2)) (Var "x")) (Var "y")) (Num (NZ 1))); (Comp CGe (Var "y") (Num (NZ 3)), Comp CLt (Var "y") (Num (NZ 3)))].
Example C80_nonvacuous :
  make_constraint number number_of number_trunc two_texts = Ok (Several number two_pairs) /\
  call_constraint number number_ops number_ops number_truth (Several number two_pairs) ["x"; "y"] 2 [("r", NZ 2)] [number_row 1 0; number_row 2 4; number_row 5 3] =
    Ok [(true, true); (false, false); (false, true); (false, true); (true, false); (true, false)] /\
  agree number number_ops number_ops /\
  Forall (fun p => has_variable number ["x"; "y"] [("r", NZ 2)] (fst p) /\ has_variable number ["x"; "y"] [("r", NZ 2)] (snd p)) two_pairs /\
  condition_holds number number_ops number_truth ["x"; "y"] [("r", NZ 2)] (number_row 1 0) (Comp CLt (Var "x") (Var "r")) true.
Proof.
  split; [vm_compute; reflexivity|]; split; [vm_compute; reflexivity|]; split; [repeat split; auto|]; split.
  - assert (X : forall e, occurs number "x" e -> has_variable number ["x"; "y"] [("r", NZ 2)] e) by (intros e H; exists "x"; split; [exact H|split; [cbn; auto|reflexivity]]).
    assert (Y : forall e, occurs number "y" e -> has_variable number ["x"; "y"] [("r", NZ 2)] e) by (intros e H; exists "y"; split; [exact H|split; [cbn; auto|reflexivity]]).
    apply Forall_cons; [split|apply Forall_cons; [split|apply Forall_nil]]; [apply X|apply Y|apply Y|apply Y]; cbn [fst snd]; auto 6 using EvalSpec.O_var, EvalSpec.O_binr, EvalSpec.O_compl.
  - exists (NB true); split; [|reflexivity]; apply (EvalSpec.V_comp _ _ _ _ _ _ _ (NZ 1) (NZ 2)); [apply EvalSpec.V_var; exists 0; split; reflexivity|apply EvalSpec.V_var; reflexivity|reflexivity].
Qed.

(** A condition that is decided in every period, and never judged: "1 > 2". *)
Theorem C80_refuted :
  exists (ref alt : ast number) (rows : list (nat -> number)),
    make_constraint number number_of number_trunc (AConditions [chars "x > 0"; chars "1 > 2"]) = Ok (Single number ref alt) /\ 2 <= List.length rows /\
    (forall row, In row rows -> (exists b, condition_holds number number_ops number_truth ["x"] [] row ref b) /\ exists b, condition_holds number number_ops number_truth ["x"] [] row alt b) /\
    call_constraint number number_ops number_ops number_truth (Single number ref alt) ["x"] 1 [] rows = Err ValueErr.
Proof.
  exists (Comp CGt (Var "x") (Num (NZ 0))), (Comp CGt (Num (NZ 1)) (Num (NZ 2))), [number_row 1 0; number_row (-1) 0].
  split; [vm_compute; reflexivity|]; split; [cbn; lia|]; split; [|vm_compute; reflexivity].
  intros row [<-|[<-|[]]]; (split; [eexists; eexists; split; [eapply EvalSpec.V_comp; [apply EvalSpec.V_var; exists 0; split; reflexivity|apply EvalSpec.V_num|reflexivity]|reflexivity]|eexists; eexists; split; [eapply EvalSpec.V_comp; [apply EvalSpec.V_num|apply EvalSpec.V_num|reflexivity]|reflexivity]]).
Qed.
Print Assumptions C80_refuted.

Example C81_nonvacuous :
  occbin_run number_of number_trunc (AConditions [chars "x < 0"; chars "x > 0"]) (Some 2) = Ok (OneAlternative 0 1) /\
  occbin_run number_of number_trunc two_texts (Some 4) = Ok (ThreeAlternatives 0 1 2 3) /\
  occbin_run number_of number_trunc two_texts (Some 3) = Err IndexErr /\
  occbin_run number_of number_trunc two_texts None = Err TypeErr /\
  occbin_run number_of number_trunc (AConditions [chars "x < 0"]) (Some 2) = Err ValueErr.
Proof. repeat split; vm_compute; reflexivity. Qed.

(** The run of C51 with its constraint as text. *)
Example C82_nonvacuous :
  let c := Single number (Comp CLt (Var "x") (Num (NZ 0))) (Comp CGt (Var "x") (Num (NZ 1))) in
  make_constraint number number_of number_trunc (AConditions [chars "x < 0"; chars "x > 1"]) = Ok c /\
  (exists rows out, occbin_one Z ZO inv2 (Regime Z xi jac (vzero Z ZO)) (Regime Z xi jac (sD Z sys_alt)) (M2 2 0 (fun _ _ => 0%Z)) (V1 2 (fun _ => 1%Z))
      (fun g => call_constraint number number_ops number_ops number_truth c ["x"; "y"] 2 [] (as_rows NZ g)) (OneShock 0) (Flat Z [4; -3; 2]%Z) None (Some 5) 20 = Ok (rows, [false; false; false], out) /\
    list2 rows = [(4, 4); (-2, -2); (2, 2); (0, 0); (0, 0)]%Z) /\
  forall v : vec Z, (exists b, condition_holds number number_ops number_truth ["x"; "y"] [] (fun j => NZ (v j)) (Comp CLt (Var "x") (Num (NZ 0))) b) /\
                    exists b, condition_holds number number_ops number_truth ["x"; "y"] [] (fun j => NZ (v j)) (Comp CGt (Var "x") (Num (NZ 1))) b.
Proof.
  intros c; split; [vm_compute; reflexivity|]; split; [eexists; eexists; split; [vm_compute; reflexivity|vm_compute; reflexivity]|].
  intros v; split; eexists; eexists; (split; [eapply EvalSpec.V_comp; [apply EvalSpec.V_var; exists 0; split; reflexivity|apply EvalSpec.V_num|reflexivity]|reflexivity]).
Qed.
