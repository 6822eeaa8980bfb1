(** Lemmas about the evaluation of constraints. *)
From Verif Require Import Base Lexer Syntax Parser Eval EvalSpec EvalProofs DynProofs Constraint ConstraintSpec.

Lemma mapM_Forall2 {A B} (f : A -> res B) l : forall r, Forall2 (fun a b => f a = Ok b) l r -> mapM f l = Ok r.
Proof. induction l as [|a l IH]; intros r H; inversion H; subst; cbn [mapM]; [reflexivity|]; rewrite H2; cbn [bind]; rewrite (IH _ H4); reflexivity. Qed.
Lemma Forall2_exists {A B} (R : A -> B -> Prop) l : (forall a, In a l -> exists b, R a b) -> exists r, Forall2 R l r.
Proof.
  induction l as [|a l IH]; intros H; [exists []; constructor|].
  destruct (H a (or_introl eq_refl)) as [b Hb]; destruct IH as [r Hr]; [intros; apply H; right; assumption|]; exists (b :: r); constructor; assumption.
Qed.
Lemma Forall2_imp {A B} (R S : A -> B -> Prop) l r : (forall a b, R a b -> S a b) -> Forall2 R l r -> Forall2 S l r.
Proof. intros H; induction 1; constructor; auto. Qed.
Lemma Forall2_split {A B C D} (R : A -> B -> Prop) (S : A -> C -> Prop) (T : A -> D -> Prop) (Q : B -> C -> D -> Prop) l r :
  (forall a d, T a d -> exists b c, R a b /\ S a c /\ Q b c d) -> Forall2 T l r ->
  exists p q, Forall2 R l p /\ Forall2 S l q /\ Forall2 (fun x d => Q (fst x) (snd x) d) (combine p q) r /\ List.length p = List.length l /\ List.length q = List.length l.
Proof.
  intros H; induction 1 as [|a d l r Hd _ IH]; [exists [], []; repeat constructor|].
  destruct (H a d Hd) as (b & c & H1 & H2 & H3); destruct IH as (p & q & P1 & P2 & P3 & P4 & P5); exists (b :: p), (c :: q); cbn [combine List.length]; repeat split; try constructor; auto.
Qed.

Section Call.
  Variable V : Type.
  Variable P N : ops V.
  Variable truth : V -> option bool.
  Variable endog : list string.
  Variable params : list (string * V).
  Variable n : nat.
  Variable rows : list (nat -> V).
  Hypothesis Nd : NoDup endog.
  Hypothesis Np : NoDup (keys params).
  Hypothesis Ln : List.length endog = n.
  Hypothesis AG : agree V P N.

  Lemma fold_update {A B} (g : A -> B) (l : list (string * A)) : forall d x, NoDup (keys l) ->
    lookup x (fold_left (fun d p => update (fst p) (g (snd p)) d) l d) = match lookup x l with Some v => Some (g v) | None => lookup x d end.
  Proof.
    induction l as [|[k v] l IH]; intros d x Hl; [reflexivity|]; cbn [fold_left fst snd lookup keys map] in *; apply NoDup_cons_iff in Hl as [Hk Hl].
    rewrite (IH _ x Hl), lookup_update; destruct (String.eqb_spec x k) as [->|]; [|reflexivity].
    destruct (lookup k l) as [w|] eqn:E; [|reflexivity]; exfalso; apply Hk; apply lookup_Some_In in E; apply (in_map fst) in E; exact E.
  Qed.
  Lemma combine_keys {A B} (l : list A) : forall r : list B, List.length l = List.length r -> map fst (combine l r) = l.
  Proof. induction l as [|a l IH]; intros [|b r] H; try discriminate; [reflexivity|]; cbn [combine map fst]; rewrite IH by (injection H as H; exact H); reflexivity. Qed.
  Definition col (j : nat) : cval V := Column V (map (fun r : nat -> V => r j) rows).
  Lemma scope_lookup x : lookup x (constraint_scope V endog n params rows) =
    match lookup x params with Some c => Some (Scalar V c) | None => lookup x (combine endog (map col (seq 0 n))) end.
  Proof.
    unfold constraint_scope; rewrite (fold_update (Scalar V) params _ x Np); destruct (lookup x params) as [c|]; [reflexivity|].
    unfold columns; fold col; rewrite (fold_update (fun c => c) (combine endog (map col (seq 0 n))) [] x).
    - destruct (lookup x (combine _ _)); reflexivity.
    - unfold keys; rewrite combine_keys by (rewrite map_length, seq_length; exact Ln); exact Nd.
  Qed.
  Lemma scope_var j x : lookup x params = None -> nth_error endog j = Some x -> lookup x (constraint_scope V endog n params rows) = Some (col j).
  Proof.
    intros Hp Hj; rewrite scope_lookup, Hp; apply (lookup_combine endog (map col (seq 0 n)) x (col j) Nd); exists j; split; [exact Hj|].
    assert (Lj : j < n) by (rewrite <- Ln; apply nth_error_Some; congruence).
    rewrite (map_nth_error col j (seq 0 n) (d := j)); [reflexivity|]; rewrite (nth_error_nth' _ 0) by (rewrite seq_length; exact Lj); rewrite seq_nth by exact Lj; reflexivity.
  Qed.

  Notation ev e := (evaluate (cval V) (array_ops V P N) (SDict (constraint_scope V endog n params rows)) (scalars V e)).
  Notation cv := (condition_value V P endog params).
  Notation hv := (has_variable V endog params).

  Notation ev' e := (eval_with (cval V) (array_ops V P N) (scope_get (cval V) (array_ops V P N) (SDict (constraint_scope V endog n params rows))) (fun _ _ => Err GenericErr) (scalars V e)).
  Lemma each1_ok f l r : Forall2 (fun a b => f a = Ok b) l r -> each1 V f l = Ok (Column V r).
  Proof. intros H; unfold each1; rewrite (mapM_Forall2 f l r H); reflexivity. Qed.
  Lemma apply1_ok (p q : V -> res V) a vs : (forall x v, p x = Ok v -> q x = Ok v) -> rows <> [] ->
    forall ws, Forall2 (fun v w => p v = Ok w) vs ws -> List.length vs = List.length rows ->
    (a = Column V vs -> apply1 V p q a = Ok (Column V ws)) /\
    (forall v, a = Scalar V v -> Forall (eq v) vs -> exists w, apply1 V p q a = Ok (Scalar V w) /\ Forall (eq w) ws).
  Proof.
    intros Hpq Hr ws F2 Lv; split.
    - intros ->; cbn [apply1]; apply each1_ok, (Forall2_imp (fun v w => p v = Ok w)); [intros; apply Hpq; assumption|exact F2].
    - intros v -> Hv; destruct F2 as [|x w vs ws Hx F2]; [destruct rows; [congruence|discriminate]|].
      inversion Hv; subst; exists w; cbn [apply1]; rewrite Hx; cbn [bind]; split; [reflexivity|]; constructor; [reflexivity|].
      clear Lv Hv; revert ws F2; induction H2 as [|y vs <- Hv IH]; intros ws F2; inversion F2; subst; constructor; [congruence|apply IH; assumption].
  Qed.
  Lemma apply2_ok (p q : V -> V -> res V) a b vs us ws : (forall x y v, p x y = Ok v -> q x y = Ok v) -> rows <> [] ->
    Forall2 (fun x w => p (fst x) (snd x) = Ok w) (combine vs us) ws -> List.length vs = List.length rows -> List.length us = List.length rows ->
    (a = Column V vs \/ exists v, a = Scalar V v /\ Forall (eq v) vs) -> (b = Column V us \/ exists v, b = Scalar V v /\ Forall (eq v) us) ->
    (apply2 V p q a b = Ok (Column V ws) /\ (a = Column V vs \/ b = Column V us)) \/
    (exists w, apply2 V p q a b = Ok (Scalar V w) /\ Forall (eq w) ws /\ (exists v, a = Scalar V v) /\ (exists v, b = Scalar V v)).
  Proof.
    intros Hpq Hr F2 Lv Lu [->|(v & -> & Hv)] [->|(u & -> & Hu)].
    - left; split; [|left; reflexivity]; cbn [apply2]; unfold each2; rewrite Lv, Lu, Nat.eqb_refl.
      rewrite (mapM_Forall2 _ (combine vs us) ws); [reflexivity|]; apply (Forall2_imp (fun x w => p (fst x) (snd x) = Ok w)); [intros; apply Hpq; assumption|exact F2].
    - left; split; [|left; reflexivity]; cbn [apply2]; apply each1_ok; clear Hr; rewrite <- Lu in Lv; clear Lu; revert us ws Hu F2 Lv; induction vs as [|x vs IH]; intros [|y us] ws Hu F2 Lv; try discriminate; cbn [combine] in F2; inversion F2; subst; [constructor|].
      inversion Hu; subst; constructor; [apply Hpq; exact H1|apply (IH us); [assumption|assumption|injection Lv as Lv; exact Lv]].
    - left; split; [|right; reflexivity]; cbn [apply2]; apply each1_ok; clear Hr; rewrite <- Lu in Lv; clear Lu; revert us ws Hv F2 Lv; induction vs as [|x vs IH]; intros [|y us] ws Hv F2 Lv; try discriminate; cbn [combine] in F2; inversion F2; subst; [constructor|].
      inversion Hv; subst; constructor; [apply Hpq; exact H1|apply (IH us); [assumption|assumption|injection Lv as Lv; exact Lv]].
    - right; destruct rows as [|r rs]; [congruence|]; destruct vs as [|x vs]; [discriminate|]; destruct us as [|y us]; [discriminate|].
      cbn [combine] in F2; inversion F2 as [|? w ? ws' Hx F2']; subst; inversion Hv as [|? ? E1 Hv']; subst; inversion Hu as [|? ? E2 Hu']; subst; cbn [fst snd] in Hx; exists w; cbn [apply2]; rewrite Hx; cbn [bind]; split; [reflexivity|].
      split; [|split; eexists; reflexivity]; constructor; [reflexivity|].
      clear - F2' Hv' Hu' Hx; revert us ws' F2' Hu'; induction Hv' as [|z vs <- Hz IH]; intros us ws F2 Hu; [cbn [combine] in F2; inversion F2; constructor|].
      destruct us as [|z us]; cbn [combine] in F2; inversion F2; subst; [constructor|]; inversion Hu; subst; cbn [fst snd] in *; constructor; [congruence|apply (IH us); assumption].
  Qed.

  (** A condition is a column of its values if it has a variable in it, and a number if not. *)
  Lemma eval_condition e : rows <> [] -> forall vs, Forall2 (fun row v => cv row e v) rows vs ->
    (hv e /\ ev e = Ok (Column V vs)) \/ (~ hv e /\ exists v, ev e = Ok (Scalar V v) /\ Forall (eq v) vs).
  Proof.
    intros Hr; destruct AG as (A1 & A2 & A3 & A4); unfold evaluate; induction e as [v|x|x k|o e IH|o l IHl r IHr|f e IH|o l IHl r IHr]; intros vs H; cbn [scalars eval_with].
    - right; split; [intros (x & Ho & _); inversion Ho|]; exists v; split; [reflexivity|].
      clear Hr; induction H as [|row w rs ws Hw _ IH]; constructor; [inversion Hw; reflexivity|exact IH].
    - cbn [scope_get]; destruct (lookup x params) as [c|] eqn:E.
      + right; split; [intros (y & Ho & Hi & Hl); inversion Ho; subst; congruence|]; exists c; rewrite scope_lookup, E; split; [reflexivity|].
        clear Hr; induction H as [|row w rs ws Hw _ IH]; constructor; [inversion Hw as [|? ? Hn| | | | |]; subst; unfold named in Hn; rewrite E in Hn; congruence|exact IH].
      + left; assert (Hx : exists j, nth_error endog j = Some x).
        { destruct rows as [|r0 rs]; [congruence|]; inversion H; subst; inversion H2 as [|? ? Hn| | | | |]; subst; unfold named in Hn; rewrite E in Hn; destruct Hn as (j & Hj & _); eauto. }
        destruct Hx as (j & Hj); split; [exists x; split; [constructor|split; [exact (nth_error_In _ _ Hj)|exact E]]|].
        rewrite (scope_var j x E Hj); f_equal; unfold col; f_equal.
        clear Hr; induction H as [|row w rs ws Hw _ IH]; [reflexivity|]; cbn [map]; f_equal; [|exact IH].
        inversion Hw as [|? ? Hn| | | | |]; subst; unfold named in Hn; rewrite E in Hn; destruct Hn as (j' & Hj' & ->); f_equal.
        apply (proj1 (NoDup_nth_error endog) Nd); [apply nth_error_Some; congruence|congruence].
    - exfalso; destruct rows as [|r0 rs]; [congruence|]; inversion H; subst; inversion H2; subst; contradiction.
    - destruct (Forall2_split (fun row v => cv row e v) (fun _ _ => True) (fun row v => cv row (Un o e) v) (fun v (_ : unit) w => o_un P o v = Ok w) rows vs) with (2 := H) as (p & q & F1 & _ & F3 & L1 & L2).
      { intros row w Hw; inversion Hw; subst; eexists; exists tt; eauto. }
      assert (F3' : Forall2 (fun v w => o_un P o v = Ok w) p vs).
      { clear - F3 L1 L2; rewrite <- L2 in L1; clear L2; revert q vs F3 L1; induction p as [|a p IH]; intros [|b q] vs F3 L; try discriminate; cbn [combine] in F3; inversion F3; subst; constructor; [assumption|apply (IH q); [assumption|injection L as L; exact L]]. }
      destruct (IH p F1) as [[Hh E]|(Hh & v & E & Hv)]; rewrite E; cbn [bind].
      + left; split; [destruct Hh as (x & Ho & R); exists x; split; [constructor; exact Ho|exact R]|].
        apply (apply1_ok (o_un P o) (o_un N o) _ p (A2 o) Hr vs F3' L1); reflexivity.
      + right; split; [intros (x & Ho & R); apply Hh; inversion Ho; subst; exists x; auto|].
        apply (apply1_ok (o_un P o) (o_un N o) _ p (A2 o) Hr vs F3' L1) with (v := v); [reflexivity|exact Hv].
    - destruct (Forall2_split (fun row v => cv row l v) (fun row v => cv row r v) (fun row v => cv row (Bin o l r) v) (fun v u w => o_bin P o v u = Ok w) rows vs) with (2 := H) as (p & q & F1 & F2 & F3 & L1 & L2).
      { intros row w Hw; inversion Hw; subst; eexists; eexists; eauto. }
      specialize (IHl p F1); specialize (IHr q F2).
      assert (Xl : exists a, ev' l = Ok a /\ ((hv l /\ a = Column V p) \/ (~ hv l /\ exists v, a = Scalar V v /\ Forall (eq v) p))) by (destruct IHl as [[Hl El]|(Hl & v & El & Fl)]; eauto 8).
      assert (Xr : exists a, ev' r = Ok a /\ ((hv r /\ a = Column V q) \/ (~ hv r /\ exists v, a = Scalar V v /\ Forall (eq v) q))) by (destruct IHr as [[Hl El]|(Hl & v & El & Fl)]; eauto 8).
      clear IHl IHr; destruct Xl as (a & El & Ca), Xr as (b & Er & Cb); rewrite El, Er; cbn [bind].
      destruct (apply2_ok (o_bin P o) (o_bin N o) a b p q vs (A1 o) Hr F3 L1 L2) as [[E G]|(w & E & G & (v & G1) & (v' & G2))].
      + destruct Ca as [[_ ?]|(_ & ?)]; auto.
      + destruct Cb as [[_ ?]|(_ & ?)]; auto.
      + left; split; [|exact E]; destruct G as [->| ->].
        * destruct Ca as [[(x & Ho & R) _]|(_ & ? & ? & _)]; [|discriminate]; exists x; split; [apply O_binl; exact Ho|exact R].
        * destruct Cb as [[(x & Ho & R) _]|(_ & ? & ? & _)]; [|discriminate]; exists x; split; [apply O_binr; exact Ho|exact R].
      + right; subst a b; destruct Ca as [[_ ?]|(Hl & _)]; [discriminate|]; destruct Cb as [[_ ?]|(Hr' & _)]; [discriminate|].
        split; [intros (x & Ho & R); inversion Ho; subst; [apply Hl|apply Hr']; exists x; auto|]; exists w; split; [exact E|exact G].
    - assert (Hf : exists g, In (f, g) language_functions) by (destruct rows as [|r0 rs]; [congruence|]; inversion H; subst; inversion H2; subst; eauto).
      destruct Hf as (g & Hg); destruct (proj1 (language_function f g) Hg) as [He ->].
      assert (R1 : mem f refused_funcs = false) by (cbn [evaluated_funcs In] in He; repeat (destruct He as [<-|He]; [reflexivity|]); contradiction).
      assert (R2 : mem f evaluated_funcs = true) by (apply mem_In; exact He).
      rewrite R1, R2.
      destruct (Forall2_split (fun row v => cv row e v) (fun _ _ => True) (fun row v => cv row (Fun f e) v) (fun v (_ : unit) w => o_fun P (func_name f) v = Ok w) rows vs) with (2 := H) as (p & q & F1 & _ & F3 & L1 & L2).
      { intros row w Hw; inversion Hw; subst; match goal with X : In (f, ?g') _ |- _ => destruct (proj1 (language_function f g') X) as [_ ->] end; eexists; exists tt; eauto. }
      assert (F3' : Forall2 (fun v w => o_fun P (func_name f) v = Ok w) p vs).
      { clear - F3 L1 L2; rewrite <- L2 in L1; clear L2; revert q vs F3 L1; induction p as [|a p IH]; intros [|b q] vs F3 L; try discriminate; cbn [combine] in F3; inversion F3; subst; constructor; [assumption|apply (IH q); [assumption|injection L as L; exact L]]. }
      destruct (IH p F1) as [[Hh E]|(Hh & v & E & Hv)]; rewrite E; cbn [bind].
      + left; split; [destruct Hh as (x & Ho & R); exists x; split; [constructor; exact Ho|exact R]|].
        apply (apply1_ok (o_fun P (func_name f)) (o_fun N (func_name f)) _ p (A4 _) Hr vs F3' L1); reflexivity.
      + right; split; [intros (x & Ho & R); apply Hh; inversion Ho; subst; exists x; auto|].
        apply (apply1_ok (o_fun P (func_name f)) (o_fun N (func_name f)) _ p (A4 _) Hr vs F3' L1) with (v := v); [reflexivity|exact Hv].
    - destruct (Forall2_split (fun row v => cv row l v) (fun row v => cv row r v) (fun row v => cv row (Comp o l r) v) (fun v u w => o_cmp P o v u = Ok w) rows vs) with (2 := H) as (p & q & F1 & F2 & F3 & L1 & L2).
      { intros row w Hw; inversion Hw; subst; eexists; eexists; eauto. }
      specialize (IHl p F1); specialize (IHr q F2).
      assert (Xl : exists a, ev' l = Ok a /\ ((hv l /\ a = Column V p) \/ (~ hv l /\ exists v, a = Scalar V v /\ Forall (eq v) p))) by (destruct IHl as [[Hl El]|(Hl & v & El & Fl)]; eauto 8).
      assert (Xr : exists a, ev' r = Ok a /\ ((hv r /\ a = Column V q) \/ (~ hv r /\ exists v, a = Scalar V v /\ Forall (eq v) q))) by (destruct IHr as [[Hl El]|(Hl & v & El & Fl)]; eauto 8).
      clear IHl IHr; destruct Xl as (a & El & Ca), Xr as (b & Er & Cb); rewrite El, Er; cbn [bind].
      destruct (apply2_ok (o_cmp P o) (o_cmp N o) a b p q vs (A3 o) Hr F3 L1 L2) as [[E G]|(w & E & G & (v & G1) & (v' & G2))].
      + destruct Ca as [[_ ?]|(_ & ?)]; auto.
      + destruct Cb as [[_ ?]|(_ & ?)]; auto.
      + left; split; [|exact E]; destruct G as [->| ->].
        * destruct Ca as [[(x & Ho & R) _]|(_ & ? & ? & _)]; [|discriminate]; exists x; split; [apply O_compl; exact Ho|exact R].
        * destruct Cb as [[(x & Ho & R) _]|(_ & ? & ? & _)]; [|discriminate]; exists x; split; [apply O_compr; exact Ho|exact R].
      + right; subst a b; destruct Ca as [[_ ?]|(Hl & _)]; [discriminate|]; destruct Cb as [[_ ?]|(Hr' & _)]; [discriminate|].
        split; [intros (x & Ho & R); inversion Ho; subst; [apply Hl|apply Hr']; exists x; auto|]; exists w; split; [exact E|exact G].
  Qed.
End Call.
