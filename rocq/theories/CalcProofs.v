(** Limits and expansions over an ordered field: lemmas. *)
From Verif Require Import Base Nd SimSpec NdProofs OrderProofs CalcSpec.
From Coq Require Import Ring Field.

Section Calc.
  Variable F : Type.
  Variable O : rops F.
  Variable inv : F -> F.
  Variable FT : is_field O inv.
  Variable le : F -> F -> Prop.
  Hypothesis OR : is_ordered O le.
  Let FT' : field_theory (r0 O) (r1 O) (radd O) (rmul O) (rsub O) (ropp O) (rdiv O) inv eq := FT.
  Add Field Fcalc : FT'.
  Notation "0" := (r0 O). Notation "1" := (r1 O).
  Infix "+" := (radd O). Infix "*" := (rmul O). Infix "-" := (rsub O). Infix "/" := (rdiv O).
  Notation "- x" := (ropp O x).
  Infix "<=" := le.
  Notation positive := (CalcSpec.positive F O le).
  Notation within := (CalcSpec.within F O le).
  Notation near := (CalcSpec.near F O le).
  Notation vanishes := (CalcSpec.vanishes F O le).
  Notation jet1 := (CalcSpec.jet1 F O le).
  Notation jet2 := (CalcSpec.jet2 F O le).
  Let le_sub' := le_sub F O inv FT le OR.
  Let le_refl' := le_refl F O le OR.

  Lemma le_trans x y z : x <= y -> y <= z -> x <= z. Proof using OR. apply (o_trans _ _ OR). Qed.
  Lemma le_add2 x y z w : x <= y -> z <= w -> x + z <= y + w.
  Proof using FT OR.
    intros A B; apply le_sub'; replace (y + w - (x + z)) with ((y - x) + (w - z)) by ring.
    apply (add_nonneg F O inv FT le OR); apply (proj1 (le_sub' _ _)); assumption.
  Qed.
  Lemma le_opp x y : x <= y -> - y <= - x.
  Proof using FT OR. intros H; apply le_sub'; replace (- x - - y) with (y - x) by ring; apply (proj1 (le_sub' _ _)); exact H. Qed.
  Lemma le_mul x y : 0 <= x -> 0 <= y -> 0 <= x * y. Proof using OR. apply (o_mul _ _ OR). Qed.
  Lemma pos_one : positive 1.
  Proof using FT OR. split; [apply (one_nonneg F O inv FT le OR)|apply (F_1_neq_0 FT')]. Qed.
  Lemma pos_add x y : positive x -> 0 <= y -> positive (x + y).
  Proof using FT OR.
    intros [A N] B; split; [apply (add_nonneg F O inv FT le OR); assumption|].
    intros E; apply N, (o_anti _ _ OR); [|exact A].
    apply le_sub'; replace (0 - x) with (y - (x + y)) by ring; rewrite E; replace (y - 0) with y by ring; exact B.
  Qed.
  Lemma mul_nz x y : x <> 0 -> y <> 0 -> x * y <> 0.
  Proof using FT. intros A B E; apply A; replace x with ((x * y) * (1 / y)) by (field; exact B); rewrite E; ring. Qed.
  Lemma pos_mul x y : positive x -> positive y -> positive (x * y).
  Proof using FT OR. intros [A N] [B M]; split; [apply le_mul; assumption|apply mul_nz; assumption]. Qed.
  Lemma pos_inv x : positive x -> positive (1 / x).
  Proof using FT OR.
    intros [A N]; split; [apply (inv_nonneg F O inv FT le OR); assumption|].
    intros E; apply (F_1_neq_0 FT'); replace 1 with (x * (1 / x)) by (field; exact N); rewrite E; ring.
  Qed.
  Lemma pos_div x y : positive x -> positive y -> positive (x / y).
  Proof using FT OR. intros A B; replace (x / y) with (x * (1 / y)) by (field; apply B); apply pos_mul; [exact A|apply pos_inv, B]. Qed.
  Lemma pos_two : positive (twice_one O).
  Proof using FT OR. apply pos_add; [apply pos_one|apply pos_one]. Qed.
  Lemma pos_half x : positive x -> positive (x / twice_one O).
  Proof using FT OR. intros H; apply pos_div; [exact H|apply pos_two]. Qed.
  Lemma two_nz : twice_one O <> 0. Proof using FT OR. apply pos_two. Qed.
  Lemma halves x : x = x / twice_one O + x / twice_one O.
  Proof using FT OR. unfold twice_one; field; exact two_nz. Qed.

  Lemma within_mono e d x : within e x -> e <= d -> within d x.
  Proof using FT OR. intros [A B] H; split; [apply le_trans with (- e); [apply le_opp, H|exact A]|apply le_trans with e; assumption]. Qed.
  Lemma within_zero e : 0 <= e -> within e 0.
  Proof using FT OR. intros H; split; [replace 0 with (- 0) by ring; apply le_opp, H|exact H]. Qed.
  Lemma within_add d e x y : within d x -> within e y -> within (d + e) (x + y).
  Proof using FT OR. intros [A B] [C D]; split; [replace (- (d + e)) with (- d + - e) by ring|]; apply le_add2; assumption. Qed.
  Lemma within_opp e x : within e x -> within e (- x).
  Proof using FT OR. intros [A B]; split; [apply le_opp, B|replace e with (- - e) by ring; apply le_opp, A]. Qed.
  Lemma within_nonneg e x : within e x -> 0 <= e.
  Proof using FT OR.
    intros [A B]; destruct (o_total _ _ OR 0 e) as [H|H]; [exact H|].
    assert (G : e = 0); [|rewrite G; apply le_refl'].
    apply (o_anti _ _ OR); [exact H|].
    assert (- e <= e) as K by (apply le_trans with x; assumption).
    apply le_trans with (- e); [|exact K]; replace 0 with (- 0) by ring; apply le_opp, H.
  Qed.
  Lemma abs_cases x : exists y, 0 <= y /\ within y x /\ (y = x \/ y = - x).
  Proof using FT OR.
    destruct (o_total _ _ OR 0 x) as [H|H].
    - exists x; split; [exact H|]; split; [|left; reflexivity]; split; [|apply le_refl'].
      apply le_trans with 0; [replace 0 with (- 0) by ring; apply le_opp, H|exact H].
    - assert (G : 0 <= - x) by (replace 0 with (- 0) by ring; apply le_opp, H).
      exists (- x); split; [exact G|]; split; [|right; reflexivity]; split; [replace (- - x) with x by ring; apply le_refl'|].
      apply le_trans with 0; assumption.
  Qed.
  Lemma within_mul d e x y : within d x -> within e y -> within (d * e) (x * y).
  Proof using FT OR.
    intros A B; pose proof (within_nonneg _ _ A) as Hd; pose proof (within_nonneg _ _ B) as He.
    assert (G : forall a b, within d a -> within e b -> 0 <= a -> 0 <= b -> within (d * e) (a * b)).
    { intros a b [_ A2] [_ B2] Ha Hb; split.
      - apply le_trans with 0; [replace 0 with (- 0) by ring; apply le_opp, le_mul; assumption|apply le_mul; assumption].
      - apply (mul_mono F O inv FT le OR); assumption. }
    assert (Op : forall z, z <= 0 -> 0 <= - z) by (intros z Hz; replace 0 with (- 0) by ring; apply le_opp, Hz).
    destruct (o_total _ _ OR 0 x) as [Hx|Hx], (o_total _ _ OR 0 y) as [Hy|Hy].
    - apply G; assumption.
    - replace (x * y) with (- (x * - y)) by ring; apply within_opp, G; auto using within_opp.
    - replace (x * y) with (- (- x * y)) by ring; apply within_opp, G; auto using within_opp.
    - replace (x * y) with (- x * - y) by ring; apply G; auto using within_opp.
  Qed.

  Lemma near_and P Q : near P -> near Q -> near (fun t => P t /\ Q t).
  Proof using FT OR.
    intros (d & Hd & A) (e & He & B); destruct (o_total _ _ OR d e) as [H|H].
    - exists d; split; [exact Hd|]; intros t Ht; split; [apply A, Ht|apply B; apply within_mono with d; assumption].
    - exists e; split; [exact He|]; intros t Ht; split; [apply A; apply within_mono with e; assumption|apply B, Ht].
  Qed.
  Lemma near_mono (P Q : F -> Prop) : (forall t, P t -> Q t) -> near P -> near Q.
  Proof using. intros H (d & Hd & A); exists d; split; [exact Hd|]; intros t Ht; apply H, A, Ht. Qed.
  Lemma near_all (P : F -> Prop) : (forall t, P t) -> near P.
  Proof using FT OR. intros H; exists 1; split; [apply pos_one|]; intros; apply H. Qed.
  Lemma near_at P : near P -> P 0.
  Proof using FT OR. intros (d & [Hd _] & A); apply A, within_zero, Hd. Qed.
  Lemma near_two (P Q R : F -> Prop) : (forall t, P t -> Q t -> R t) -> near P -> near Q -> near R.
  Proof using FT OR. intros H A B; apply near_mono with (2 := near_and _ _ A B); intros t [X Y]; apply H; assumption. Qed.
  Lemma near_Forall {A} (P : A -> F -> Prop) l : Forall (fun a => near (P a)) l -> near (fun t => Forall (fun a => P a t) l).
  Proof using FT OR.
    induction 1 as [|a l Ha _ IH]; [apply near_all; constructor|].
    apply near_two with (2 := Ha) (3 := IH); intros t X Y; constructor; assumption.
  Qed.
  Lemma near_below n (P : nat -> F -> Prop) : (forall i, Peano.lt i n -> near (P i)) -> near (fun t => forall i, Peano.lt i n -> P i t).
  Proof using FT OR.
    intros H; assert (G : Forall (fun i => near (P i)) (seq 0 n)) by (apply Forall_forall; intros i Hi; apply in_seq in Hi; apply H; lia).
    apply near_Forall in G; apply near_mono with (2 := G); intros t Ht i Hi; apply (proj1 (Forall_forall _ _) Ht), in_seq; lia.
  Qed.

  (** Bounded near zero. *)
  Definition bounded (r : F -> F) : Prop := exists k, positive k /\ near (fun t => within k (r t)).
  Lemma within_one_more x : exists k, positive k /\ within k x.
  Proof using FT OR.
    destruct (abs_cases x) as (y & Hy & W & _); exists (1 + y); split; [apply pos_add; [apply pos_one|exact Hy]|].
    apply within_mono with y; [exact W|]; apply le_sub'; replace (1 + y - y) with 1 by ring; apply (one_nonneg F O inv FT le OR).
  Qed.
  Lemma bounded_const a : bounded (fun _ => a).
  Proof using FT OR. destruct (within_one_more a) as (k & Hk & W); exists k; split; [exact Hk|]; apply near_all; intros; exact W. Qed.
  Lemma vanishes_bounded s : vanishes s -> bounded s.
  Proof using FT OR. intros H; exists 1; split; [apply pos_one|apply H, pos_one]. Qed.
  Lemma bounded_add r s : bounded r -> bounded s -> bounded (fun t => r t + s t).
  Proof using FT OR.
    intros (k & Hk & A) (m & Hm & B); exists (k + m); split; [apply pos_add; [exact Hk|apply Hm]|].
    apply near_two with (2 := A) (3 := B); intros t; apply within_add.
  Qed.
  Lemma bounded_mul r s : bounded r -> bounded s -> bounded (fun t => r t * s t).
  Proof using FT OR.
    intros (k & Hk & A) (m & Hm & B); exists (k * m); split; [apply pos_mul; assumption|].
    apply near_two with (2 := A) (3 := B); intros t; apply within_mul.
  Qed.
  Lemma vanishes_add r s : vanishes r -> vanishes s -> vanishes (fun t => r t + s t).
  Proof using FT OR.
    intros A B e He; rewrite (halves e).
    apply near_two with (2 := A _ (pos_half e He)) (3 := B _ (pos_half e He)); intros t; apply within_add.
  Qed.
  Lemma vanishes_mul_bounded r s : vanishes r -> bounded s -> vanishes (fun t => r t * s t).
  Proof using FT OR.
    intros A (k & Hk & B) e He; replace e with ((e / k) * k) by (field; apply Hk).
    apply near_two with (2 := A _ (pos_div e k He Hk)) (3 := B); intros t; apply within_mul.
  Qed.
  Lemma vanishes_ext r s : (forall t, r t = s t) -> vanishes r -> vanishes s.
  Proof using. intros H A e He; apply near_mono with (2 := A e He); intros t; rewrite H; tauto. Qed.
  Lemma vanishes_near r s : near (fun t => r t = s t) -> vanishes r -> vanishes s.
  Proof using FT OR. intros H A e He; apply near_two with (2 := A e He) (3 := H); intros t X Y; rewrite <- Y; exact X. Qed.
  Lemma vanishes_mul_l r s : bounded r -> vanishes s -> vanishes (fun t => r t * s t).
  Proof using FT OR. intros A B; apply vanishes_ext with (fun t => s t * r t); [intros; ring|apply vanishes_mul_bounded; assumption]. Qed.
  Lemma vanishes_id : vanishes (fun t => t).
  Proof using. intros e He; exists e; split; [exact He|]; auto. Qed.
  Lemma vanishes_zero : vanishes (fun _ => 0).
  Proof using FT OR. intros e [He _]; apply near_all; intros; apply within_zero, He. Qed.
  Lemma vanishes_comp r h : vanishes r -> vanishes h -> vanishes (fun t => r (h t)).
  Proof using.
    intros A B e He; destruct (A e He) as (d & Hd & H); destruct (B d Hd) as (d' & Hd' & H').
    exists d'; split; [exact Hd'|]; intros t Ht; apply H, H', Ht.
  Qed.
  Lemma near_comp P h : near P -> vanishes h -> near (fun t => P (h t)).
  Proof using.
    intros (d & Hd & H) B; destruct (B d Hd) as (d' & Hd' & H').
    exists d'; split; [exact Hd'|]; intros t Ht; apply H, H', Ht.
  Qed.

  (** A limit is unique, as far as equality is decided. *)
  Lemma vanishes_const_zero x : vanishes (fun _ => x) -> ~ ~ x = 0.
  Proof using FT OR.
    intros H N; destruct (abs_cases x) as (y & Hy & _ & Ex).
    assert (Py : positive y) by (split; [exact Hy|]; intros E; apply N; destruct Ex as [<-|Ex]; [exact E|]; replace x with (- - x) by ring; rewrite <- Ex, E; ring).
    pose proof (near_at _ (H _ (pos_half y Py))) as W.
    assert (W' : within (y / twice_one O) y) by (destruct Ex as [<-|Ex]; [exact W|rewrite Ex at 2; apply within_opp, W]).
    destruct W' as [_ W']; destruct (pos_half y Py) as [Hh Nh]; apply Nh, (o_anti _ _ OR); [|exact Hh].
    apply le_sub'; replace (0 - y / twice_one O) with (y / twice_one O - (y / twice_one O + y / twice_one O)) by ring; rewrite <- halves.
    apply (proj1 (le_sub' _ _)), W'.
  Qed.
  Lemma slope_unique v v' a b r s : vanishes r -> vanishes s ->
    near (fun t => v + a * t + r t * t = v' + b * t + s t * t) -> ~ ~ a = b.
  Proof using FT OR.
    intros Vr Vs E N; apply (vanishes_const_zero (a - b)); [|intros G; apply N; replace a with (a - b + b) by ring; rewrite G; ring].
    intros e He.
    assert (C : near (fun t => within (e / twice_one O) (r t) /\ (within (e / twice_one O) (s t) /\ v + a * t + r t * t = v' + b * t + s t * t))).
    { apply near_two with (2 := Vr _ (pos_half e He)) (3 := near_and _ _ (Vs _ (pos_half e He)) E); intros; split; assumption. }
    destruct C as (d & Pd & C); destruct (C 0 (within_zero d (proj1 Pd))) as (_ & _ & E0).
    assert (Wd : within d d) by (split; [|apply (le_refl F O le OR)]; apply (o_trans _ _ OR) with 0; [|apply Pd]; apply le_sub'; replace (0 - - d) with d by ring; apply Pd).
    destruct (C d Wd) as (Wr & Ws & Ed).
    assert (V : v = v') by (replace v with (v + a * 0 + r 0 * 0) by ring; rewrite E0; ring).
    assert (D : a - b = s d + - r d).
    { assert (Nd : d <> 0) by apply Pd.
      transitivity ((a * d + r d * d - b * d) / d - r d); [field; exact Nd|].
      replace (a * d + r d * d) with (v + a * d + r d * d - v) by ring; rewrite Ed, V; field; exact Nd. }
    apply near_all; intros _; rewrite D, (halves e); apply within_add; [exact Ws|apply within_opp, Wr].
  Qed.
End Calc.
