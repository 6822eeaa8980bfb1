(** Expansions of expressions: chain rule to second order. *)
From Verif Require Import Base Nd SimSpec NdProofs OrderProofs CalcSpec CalcProofs.
From Coq Require Import Ring Field.

Section Calc2.
  Variable F : Type.
  Variable O : rops F.
  Variable inv : F -> F.
  Variable FT : is_field O inv.
  Variable le : F -> F -> Prop.
  Hypothesis OR : is_ordered O le.
  Let FT' : field_theory (r0 O) (r1 O) (radd O) (rmul O) (rsub O) (ropp O) (rdiv O) inv eq := FT.
  Add Field Fcalc2 : FT'.
  Let RT : is_ring O := F_R FT'.
  Notation "0" := (r0 O). Notation "1" := (r1 O).
  Infix "+" := (radd O). Infix "*" := (rmul O). Infix "-" := (rsub O). Infix "/" := (rdiv O).
  Notation "- x" := (ropp O x).
  Infix "<=" := le.
  Notation two := (twice_one O).
  Notation positive := (CalcSpec.positive F O le).
  Notation within := (CalcSpec.within F O le).
  Notation near := (CalcSpec.near F O le).
  Notation vanishes := (CalcSpec.vanishes F O le).
  Notation jet1 := (CalcSpec.jet1 F O le).
  Notation jet2 := (CalcSpec.jet2 F O le).
  Notation smooth := (CalcSpec.smooth F O le).
  Notation bounded := (CalcProofs.bounded F O le).
  Notation rsum := (Nd.rsum F O).

  Ltac vb := lazymatch goal with
    | |- CalcSpec.vanishes _ _ _ (fun t => t) => exact (vanishes_id F O le)
    | |- CalcSpec.vanishes _ _ _ (fun t => radd _ (@?f t) (@?g t)) => apply (vanishes_add F O inv FT le OR f g); vb
    | |- CalcSpec.vanishes _ _ _ (fun t => rmul _ (@?f t) (@?g t)) => first
        [ solve [apply (vanishes_mul_bounded F O inv FT le OR f g); vb] | solve [apply (vanishes_mul_l F O inv FT le OR f g); vb] ]
    | |- CalcSpec.vanishes _ _ _ _ => assumption
    | |- CalcProofs.bounded _ _ _ (fun t => t) => exact (vanishes_bounded F O inv FT le OR _ (vanishes_id F O le))
    | |- CalcProofs.bounded _ _ _ (fun _ => ?a) => exact (bounded_const F O inv FT le OR a)
    | |- CalcProofs.bounded _ _ _ (fun t => radd _ (@?f t) (@?g t)) => apply (bounded_add F O inv FT le OR f g); vb
    | |- CalcProofs.bounded _ _ _ (fun t => rmul _ (@?f t) (@?g t)) => apply (bounded_mul F O inv FT le OR f g); vb
    | |- CalcProofs.bounded _ _ _ _ => first [assumption | apply (vanishes_bounded F O inv FT le OR); assumption]
    end.

  Lemma jet1_const a : jet1 (fun _ => a) a 0.
  Proof using FT OR. exists (fun _ => 0); split; [apply (vanishes_zero F O inv FT le OR)|apply (near_all F O inv FT le OR); intros; ring]. Qed.
  Lemma jet2_const a : jet2 (fun _ => a) a 0 0.
  Proof using FT OR. exists (fun _ => 0); split; [apply (vanishes_zero F O inv FT le OR)|apply (near_all F O inv FT le OR); intros; ring]. Qed.
  Lemma jet2_poly a b c : jet2 (fun t => a + b * t + c * (t * t)) a b c.
  Proof using FT OR. exists (fun _ => 0); split; [apply (vanishes_zero F O inv FT le OR)|apply (near_all F O inv FT le OR); intros; ring]. Qed.
  Lemma jet1_ext f g a b : near (fun t => f t = g t) -> jet1 f a b -> jet1 g a b.
  Proof using FT OR. intros H (s & V & N); exists s; split; [exact V|]; apply (near_two F O inv FT le OR) with (2 := H) (3 := N); intros t X Y; rewrite <- X; exact Y. Qed.
  Lemma jet2_ext f g a b c : near (fun t => f t = g t) -> jet2 f a b c -> jet2 g a b c.
  Proof using FT OR. intros H (s & V & N); exists s; split; [exact V|]; apply (near_two F O inv FT le OR) with (2 := H) (3 := N); intros t X Y; rewrite <- X; exact Y. Qed.
  Lemma jet2_jet1 f a b c : jet2 f a b c -> jet1 f a b.
  Proof using FT OR.
    intros (s & V & N); exists (fun t => c * t + s t * t); split; [vb|].
    apply near_mono with (2 := N); intros t ->; ring.
  Qed.
  Lemma jet1_add f g a b a' b' : jet1 f a b -> jet1 g a' b' -> jet1 (fun t => f t + g t) (a + a') (b + b').
  Proof using FT OR.
    intros (s & V & N) (s' & V' & N'); exists (fun t => s t + s' t); split; [vb|].
    apply (near_two F O inv FT le OR) with (2 := N) (3 := N'); intros t -> ->; ring.
  Qed.
  Lemma jet2_add f g a b c a' b' c' : jet2 f a b c -> jet2 g a' b' c' -> jet2 (fun t => f t + g t) (a + a') (b + b') (c + c').
  Proof using FT OR.
    intros (s & V & N) (s' & V' & N'); exists (fun t => s t + s' t); split; [vb|].
    apply (near_two F O inv FT le OR) with (2 := N) (3 := N'); intros t -> ->; ring.
  Qed.
  Lemma jet1_mul f g a b a' b' : jet1 f a b -> jet1 g a' b' -> jet1 (fun t => f t * g t) (a * a') (b * a' + a * b').
  Proof using FT OR.
    intros (s & V & N) (s' & V' & N'); exists (fun t => s t * (a' + b' * t + s' t * t) + s' t * (a + b * t) + (b * b') * t); split; [vb|].
    apply (near_two F O inv FT le OR) with (2 := N) (3 := N'); intros t -> ->; ring.
  Qed.
  Lemma jet2_mul f g a b c a' b' c' : jet2 f a b c -> jet2 g a' b' c' ->
    jet2 (fun t => f t * g t) (a * a') (b * a' + a * b') (c * a' + b * b' + a * c').
  Proof using FT OR.
    intros (s & V & N) (s' & V' & N').
    exists (fun t => s t * (a' + b' * t + c' * (t * t) + s' t * (t * t)) + s' t * (a + b * t + c * (t * t)) + ((b * c' + c * b') * t + (c * c') * (t * t))); split; [vb|].
    apply (near_two F O inv FT le OR) with (2 := N) (3 := N'); intros t -> ->; ring.
  Qed.
  Lemma jet1_vanishes f a b : jet1 f a b -> vanishes (fun t => f t - a).
  Proof using FT OR.
    intros (s & V & N); apply (vanishes_near F O inv FT le OR) with (fun t => b * t + s t * t); [|vb].
    apply near_mono with (2 := N); intros t ->; ring.
  Qed.
  Lemma jet2_vanishes f a b c : jet2 f a b c -> vanishes (fun t => f t - a).
  Proof using FT OR. intros H; apply jet1_vanishes with b, jet2_jet1 with c, H. Qed.
  Lemma jet1_comp h f a b h0 h1 : jet1 (fun t => h (a + t)) h0 h1 -> jet1 f a b -> jet1 (fun t => h (f t)) h0 (h1 * b).
  Proof using FT OR.
    intros (s' & V' & N') Hf; pose proof (jet1_vanishes _ _ _ Hf) as Vf; destruct Hf as (s & V & N).
    pose proof (vanishes_comp F O le _ _ V' Vf) as Vc.
    apply (near_comp F O le _ _ N') in Vf.
    exists (fun t => h1 * s t + s' (f t - a) * (b + s t)); split.
    - apply (vanishes_add F O inv FT le OR); [vb|]; apply (vanishes_mul_bounded F O inv FT le OR); [exact Vc|vb].
    - apply (near_two F O inv FT le OR) with (2 := N) (3 := Vf); intros t E1 E2.
      replace (a + (f t - a)) with (f t) in E2 by ring; rewrite E2; replace (f t - a) with (t * (b + s t)) by (rewrite E1; ring); ring.
  Qed.
  Lemma jet2_comp h f a b c h0 h1 h2 : jet2 (fun t => h (a + t)) h0 h1 h2 -> jet2 f a b c ->
    jet2 (fun t => h (f t)) h0 (h1 * b) (h1 * c + h2 * (b * b)).
  Proof using FT OR.
    intros (s' & V' & N') Hf; pose proof (jet2_vanishes _ _ _ _ Hf) as Vf; destruct Hf as (s & V & N).
    pose proof (vanishes_comp F O le _ _ V' Vf) as Vc.
    apply (near_comp F O le _ _ N') in Vf.
    exists (fun t => h1 * s t + (s' (f t - a) * ((b + c * t + s t * t) * (b + c * t + s t * t)) +
             h2 * ((c * t + s t * t) * (b + b + (c * t + s t * t))))); split.
    - apply (vanishes_add F O inv FT le OR); [vb|]; apply (vanishes_add F O inv FT le OR); [|vb].
      apply (vanishes_mul_bounded F O inv FT le OR); [exact Vc|vb].
    - apply (near_two F O inv FT le OR) with (2 := N) (3 := Vf); intros t E1 E2.
      replace (a + (f t - a)) with (f t) in E2 by ring; rewrite E2; replace (f t - a) with (t * (b + c * t + s t * t)) by (rewrite E1; ring); ring.
  Qed.

  (** The reciprocal. *)
  Definition recip : smooth_fun F := SmoothFun (fun x => 1 / x) (fun x => - (1 / (x * x))) (fun x => two / (x * (x * x))) (fun x => x <> 0).
  Lemma near_nonzero a : a <> 0 -> near (fun t => a + t <> 0).
  Proof using FT OR.
    intros N; destruct (abs_cases F O inv FT le OR a) as (y & Hy & _ & Ey).
    assert (Py : positive y) by (split; [exact Hy|]; intros E; apply N; destruct Ey as [<-|Ey]; [exact E|]; replace a with (- - a) by ring; rewrite <- Ey, E; ring).
    exists (y / two); split; [apply (pos_half F O inv FT le OR), Py|]; intros t W E.
    assert (W' : within (y / two) y).
    { assert (Et : t = - a) by (replace t with (a + t - a) by ring; rewrite E; ring); rewrite Et in W.
      destruct Ey as [->| ->]; [replace a with (- - a) at 2 by ring; apply (within_opp F O inv FT le OR), W|exact W]. }
    destruct W' as [_ W']; destruct (pos_half F O inv FT le OR y Py) as [Hh Nh]; apply Nh, (o_anti _ _ OR); [|exact Hh].
    apply (le_sub F O inv FT le OR); replace (0 - y / two) with (y / two - (y / two + y / two)) by ring; rewrite <- (halves F O inv FT le OR).
    apply (proj1 (le_sub F O inv FT le OR _ _)), W'.
  Qed.
  Lemma recip_bounded a : a <> 0 -> bounded (fun t => 1 / (a + t)).
  Proof using FT OR.
    intros N; destruct (abs_cases F O inv FT le OR a) as (y & Hy & _ & Ey).
    assert (Py : positive y) by (split; [exact Hy|]; intros E; apply N; destruct Ey as [<-|Ey]; [exact E|]; replace a with (- - a) by ring; rewrite <- Ey, E; ring).
    assert (G : forall z, (y / two) <= z -> positive z /\ within (two / y) (1 / z)).
    { intros z Hz; assert (Pz : positive z).
      { replace z with (y / two + (z - y / two)) by ring; apply (pos_add F O inv FT le OR); [apply (pos_half F O inv FT le OR), Py|apply (proj1 (le_sub F O inv FT le OR _ _)), Hz]. }
      split; [exact Pz|]; destruct (pos_inv F O inv FT le OR z Pz) as [Hi _]; split.
      - apply (le_trans F O le OR) with 0; [|exact Hi]; replace 0 with (- 0) by ring; apply (le_opp F O inv FT le OR).
        apply (pos_div F O inv FT le OR); [apply (pos_two F O inv FT le OR)|exact Py].
      - apply (le_sub F O inv FT le OR); replace (two / y - 1 / z) with ((z - y / two) * (two / y * (1 / z))).
        + apply (le_mul F O le OR); [apply (proj1 (le_sub F O inv FT le OR _ _)), Hz|apply (le_mul F O le OR); [|exact Hi]].
          apply (pos_div F O inv FT le OR); [apply (pos_two F O inv FT le OR)|exact Py].
        + pose proof (two_nz F O inv FT le OR) as T; unfold twice_one in *; field; repeat split; try exact T; first [apply Py|apply Pz]. }
    exists (two / y); split; [apply (pos_div F O inv FT le OR); [apply (pos_two F O inv FT le OR)|exact Py]|].
    exists (y / two); split; [apply (pos_half F O inv FT le OR), Py|]; intros t [W1 W2].
    pose proof (halves F O inv FT le OR y) as Eh.
    destruct Ey as [Ey|Ey].
    - apply G; rewrite <- Ey; apply (le_sub F O inv FT le OR); replace (y + t - y / two) with (t - - (y / two)) by (clear - Eh RT; set (h := y / two) in *; clearbody h; rewrite Eh; ring).
      apply (proj1 (le_sub F O inv FT le OR _ _)), W1.
    - assert (H : y / two <= - (a + t)).
      { replace a with (- y) by (rewrite Ey; ring); apply (le_sub F O inv FT le OR); replace (- (- y + t) - y / two) with (y / two - t) by (clear - Eh RT; set (h := y / two) in *; clearbody h; rewrite Eh; ring).
        apply (proj1 (le_sub F O inv FT le OR _ _)), W2. }
      destruct (G _ H) as [Pz Wz].
      assert (Nz : a + t <> 0) by (intros E; apply Pz; rewrite E; ring).
      replace (1 / (a + t)) with (- (1 / - (a + t))); [apply (within_opp F O inv FT le OR), Wz|].
      field; split; [exact Nz|apply Pz].
  Qed.
  Lemma recip_smooth : smooth recip.
  Proof using FT OR.
    intros a N; pose proof (near_nonzero a N) as Nn; pose proof (recip_bounded a N) as B.
    split; [exact Nn|split]; cbn [recip sf sf1 sf2].
    - exists (fun t => (- (1 / (a * (a * a))) * t) * (1 / (a + t))); split; [vb|].
      apply near_mono with (2 := Nn); intros t Nt; pose proof (two_nz F O inv FT le OR) as T; unfold twice_one in *; field; repeat split; try assumption.
    - exists (fun t => (- ((1 + 1 + 1) / (a * a) ) * t + - (two / (a * (a * a))) * (t * t)) * ((1 / (a + t)) * (1 / (a + t)))); split; [vb|].
      apply near_mono with (2 := Nn); intros t Nt; pose proof (two_nz F O inv FT le OR) as T; unfold twice_one in *; field; repeat split; try assumption.
  Qed.

  (** Expressions in numbered arguments. *)
  Inductive ex := Cst (a : F) | Arg (c : nat) | Plus (x y : ex) | Times (x y : ex) | App (h : smooth_fun F) (x : ex).
  Fixpoint val (x : ex) (p : nat -> F) : F :=
    match x with
    | Cst a => a | Arg c => p c | Plus x y => val x p + val y p | Times x y => val x p * val y p
    | App h x => sf h (val x p)
    end.
  Fixpoint below (w : nat) (x : ex) : Prop :=
    match x with
    | Cst _ => True | Arg c => Peano.lt c w | Plus x y | Times x y => below w x /\ below w y
    | App h x => smooth h /\ below w x
    end.
  Fixpoint closed (x : ex) : Prop :=
    match x with Cst _ => True | Arg _ => False | Plus x y | Times x y => closed x /\ closed y | App _ x => closed x end.
  Fixpoint fine (x : ex) (p : nat -> F) : Prop :=
    match x with
    | Cst _ | Arg _ => True | Plus x y | Times x y => fine x p /\ fine y p
    | App h x => fine x p /\ sdom h (val x p)
    end.
  (** First and second partial derivatives. *)
  Fixpoint d1 (x : ex) (c : nat) (p : nat -> F) : F :=
    match x with
    | Cst _ => 0 | Arg i => if i =? c then 1 else 0 | Plus x y => d1 x c p + d1 y c p
    | Times x y => d1 x c p * val y p + val x p * d1 y c p
    | App h x => sf1 h (val x p) * d1 x c p
    end.
  Fixpoint d2 (x : ex) (c d : nat) (p : nat -> F) : F :=
    match x with
    | Cst _ | Arg _ => 0 | Plus x y => d2 x c d p + d2 y c d p
    | Times x y => d2 x c d p * val y p + d1 x c p * d1 y d p + d1 x d p * d1 y c p + val x p * d2 y c d p
    | App h x => sf2 h (val x p) * (d1 x c p * d1 x d p) + sf1 h (val x p) * d2 x c d p
    end.
  Lemma d2_sym x c d p : d2 x c d p = d2 x d c p.
  Proof using FT. induction x as [| |x IHx y IHy|x IHx y IHy|h x IHx]; cbn [d2]; try reflexivity; [rewrite IHx, IHy; reflexivity| |]; [rewrite IHx, IHy|rewrite IHx]; ring. Qed.
  Lemma val_closed x p q : closed x -> val x p = val x q.
  Proof using. induction x as [| |x IHx y IHy|x IHx y IHy|h x IHx]; cbn [closed val]; try reflexivity; [contradiction| | |]; intros H; [destruct H; rewrite IHx, IHy by assumption; reflexivity|destruct H; rewrite IHx, IHy by assumption; reflexivity|rewrite IHx by assumption; reflexivity]. Qed.

  (** The same along a path. *)
  Fixpoint D1 (x : ex) (p b : nat -> F) : F :=
    match x with
    | Cst _ => 0 | Arg i => b i | Plus x y => D1 x p b + D1 y p b
    | Times x y => D1 x p b * val y p + val x p * D1 y p b
    | App h x => sf1 h (val x p) * D1 x p b
    end.
  Fixpoint D2 (x : ex) (p b q : nat -> F) : F :=
    match x with
    | Cst _ => 0 | Arg i => q i | Plus x y => D2 x p b q + D2 y p b q
    | Times x y => D2 x p b q * val y p + D1 x p b * D1 y p b + val x p * D2 y p b q
    | App h x => sf1 h (val x p) * D2 x p b q + sf2 h (val x p) / two * (D1 x p b * D1 x p b)
    end.
  (** The derivative along a path of a partial derivative. *)
  Fixpoint E1 (x : ex) (c : nat) (p b : nat -> F) : F :=
    match x with
    | Cst _ | Arg _ => 0 | Plus x y => E1 x c p b + E1 y c p b
    | Times x y => (E1 x c p b * val y p + d1 x c p * D1 y p b) + (D1 x p b * d1 y c p + val x p * E1 y c p b)
    | App h x => (sf2 h (val x p) * D1 x p b) * d1 x c p + sf1 h (val x p) * E1 x c p b
    end.

  Section Path.
    Variable w : nat.
    Variable p : nat -> F -> F.
    Variable a b q : nat -> F.
    Hypothesis Hp : forall c, Peano.lt c w -> jet2 (p c) (a c) (b c) (q c).
    Let at_ t := fun c => p c t.
    Lemma val_jet x : below w x -> fine x a -> jet2 (fun t => val x (at_ t)) (val x a) (D1 x a b) (D2 x a b q).
    Proof using Hp FT OR.
      induction x as [k|c|x IHx y IHy|x IHx y IHy|h x IHx]; cbn [below fine val D1 D2].
      - intros _ _; apply jet2_const.
      - intros Hc _; apply Hp, Hc.
      - intros [A B] [C D]; apply jet2_add; [apply IHx|apply IHy]; assumption.
      - intros [A B] [C D]; apply jet2_mul; [apply IHx|apply IHy]; assumption.
      - intros [A B] [C D]; destruct (A _ D) as (_ & J & _).
        exact (jet2_comp _ _ _ _ _ _ _ _ J (IHx B C)).
    Qed.
    Lemma fine_near x : below w x -> fine x a -> near (fun t => fine x (at_ t)).
    Proof using Hp FT OR.
      induction x as [k|c|x IHx y IHy|x IHx y IHy|h x IHx]; cbn [below fine].
      - intros _ _; apply (near_all F O inv FT le OR); auto.
      - intros _ _; apply (near_all F O inv FT le OR); auto.
      - intros [A B] [C D]; apply (near_and F O inv FT le OR); auto.
      - intros [A B] [C D]; apply (near_and F O inv FT le OR); auto.
      - intros [A B] [C D]; apply (near_and F O inv FT le OR); [auto|].
        destruct (A _ D) as (N & _); pose proof (near_comp F O le _ _ N (jet2_vanishes _ _ _ _ (val_jet x B C))) as N'; cbn beta in N'.
        apply near_mono with (2 := N'); intros t; replace (val x a + (val x (at_ t) - val x a)) with (val x (at_ t)) by ring; tauto.
    Qed.
    Lemma d1_jet x c : below w x -> fine x a -> jet1 (fun t => d1 x c (at_ t)) (d1 x c a) (E1 x c a b).
    Proof using Hp FT OR.
      induction x as [k|i|x IHx y IHy|x IHx y IHy|h x IHx]; cbn [below fine d1 E1].
      - intros _ _; apply jet1_const.
      - intros _ _; apply jet1_const.
      - intros [A B] [C D]; apply jet1_add; auto.
      - intros [A B] [C D]; apply jet1_add; apply jet1_mul; auto; first [exact (jet2_jet1 _ _ _ _ (val_jet x A C))|exact (jet2_jet1 _ _ _ _ (val_jet y B D))].
      - intros [A B] [C D]; destruct (A _ D) as (_ & _ & J).
        apply jet1_mul; [|auto].
        exact (jet1_comp _ _ _ _ _ _ J (jet2_jet1 _ _ _ _ (val_jet x B C))).
    Qed.
  End Path.

  Section Sums.
    Variable w : nat.
    Variable p b q : nat -> F.
    Lemma D1_sum x : below w x -> D1 x p b = rsum w (fun c => d1 x c p * b c).
    Proof using FT.
      induction x as [k|i|x IHx y IHy|x IHx y IHy|h x IHx]; cbn [below D1 d1].
      - intros _; symmetry; apply (rsum_all_zero F O RT); intros; ring.
      - intros Hi; rewrite (rsum_single F O RT w i); [rewrite Nat.eqb_refl; ring|exact Hi|].
        intros j _ N; destruct (Nat.eqb_spec i j) as [E|_]; [congruence|ring].
      - intros [A B]; rewrite (IHx A), (IHy B), <- (rsum_add F O RT); apply rsum_ext; intros; ring.
      - intros [A B]; rewrite (IHx A), (IHy B), <- (rsum_mul_r F O RT), <- (rsum_mul_l F O RT), <- (rsum_add F O RT); apply rsum_ext; intros; ring.
      - intros [A B]; rewrite (IHx B), <- (rsum_mul_l F O RT); apply rsum_ext; intros; ring.
    Qed.
    Lemma E1_sum x c : below w x -> E1 x c p b = rsum w (fun d => d2 x c d p * b d).
    Proof using FT.
      induction x as [k|i|x IHx y IHy|x IHx y IHy|h x IHx]; cbn [below E1 d2].
      - intros _; symmetry; apply (rsum_all_zero F O RT); intros; ring.
      - intros _; symmetry; apply (rsum_all_zero F O RT); intros; ring.
      - intros [A B]; rewrite (IHx A), (IHy B), <- (rsum_add F O RT); apply rsum_ext; intros; ring.
      - intros [A B]; rewrite (IHx A), (IHy B), (D1_sum x A), (D1_sum y B).
        rewrite <- !(rsum_mul_r F O RT), <- !(rsum_mul_l F O RT), <- !(rsum_add F O RT); apply rsum_ext; intros; ring.
      - intros [A B]; rewrite (IHx B), (D1_sum x B), <- !(rsum_mul_l F O RT), <- !(rsum_mul_r F O RT), <- (rsum_add F O RT); apply rsum_ext; intros; ring.
    Qed.
    Lemma D2_linear x : below w x -> D2 x p b q = rsum w (fun c => d1 x c p * q c) + D2 x p b (fun _ => 0).
    Proof using FT.
      induction x as [k|i|x IHx y IHy|x IHx y IHy|h x IHx]; cbn [below D2 d1].
      - intros _; rewrite (rsum_all_zero F O RT) by (intros; ring); ring.
      - intros Hi; rewrite (rsum_single F O RT w i); [rewrite Nat.eqb_refl; ring|exact Hi|].
        intros j _ N; destruct (Nat.eqb_spec i j) as [E|_]; [congruence|ring].
      - intros [A B]; rewrite (IHx A), (IHy B).
        replace (rsum w (fun c => (d1 x c p + d1 y c p) * q c)) with (rsum w (fun c => d1 x c p * q c) + rsum w (fun c => d1 y c p * q c)); [ring|].
        rewrite <- (rsum_add F O RT); apply rsum_ext; intros; ring.
      - intros [A B]; rewrite (IHx A), (IHy B).
        replace (rsum w (fun c => (d1 x c p * val y p + val x p * d1 y c p) * q c)) with (rsum w (fun c => d1 x c p * q c) * val y p + val x p * rsum w (fun c => d1 y c p * q c)); [ring|].
        rewrite <- (rsum_mul_r F O RT), <- (rsum_mul_l F O RT), <- (rsum_add F O RT); apply rsum_ext; intros; ring.
      - intros [A B]; rewrite (IHx B).
        replace (rsum w (fun c => sf1 h (val x p) * d1 x c p * q c)) with (sf1 h (val x p) * rsum w (fun c => d1 x c p * q c)); [ring|].
        rewrite <- (rsum_mul_l F O RT); apply rsum_ext; intros; ring.
    Qed.
    (** Twice the curvature is the second derivative along the direction. *)
    Lemma D2_twice x : below w x -> two * D2 x p b (fun _ => 0) = rsum w (fun c => E1 x c p b * b c).
    Proof using FT OR.
      pose proof (two_nz F O inv FT le OR) as T.
      induction x as [k|i|x IHx y IHy|x IHx y IHy|h x IHx]; cbn [below D2 E1].
      - intros _; rewrite (rsum_all_zero F O RT) by (intros; ring); ring.
      - intros _; rewrite (rsum_all_zero F O RT) by (intros; ring); ring.
      - intros [A B].
        replace (two * (D2 x p b (fun _ => 0) + D2 y p b (fun _ => 0))) with (two * D2 x p b (fun _ => 0) + two * D2 y p b (fun _ => 0)) by ring.
        rewrite (IHx A), (IHy B), <- (rsum_add F O RT); apply rsum_ext; intros; ring.
      - intros [A B].
        replace (two * (D2 x p b (fun _ => 0) * val y p + D1 x p b * D1 y p b + val x p * D2 y p b (fun _ => 0)))
          with ((two * D2 x p b (fun _ => 0)) * val y p + (D1 x p b * D1 y p b + D1 x p b * D1 y p b) + val x p * (two * D2 y p b (fun _ => 0))) by (unfold twice_one; ring).
        rewrite (IHx A), (IHy B).
        symmetry; etransitivity; [apply (rsum_ext F O w _ (fun c => (E1 x c p b * b c) * val y p + (d1 x c p * b c) * D1 y p b + (D1 x p b * (d1 y c p * b c) + val x p * (E1 y c p b * b c)))); intros; ring|].
        rewrite !(rsum_add F O RT), !(rsum_mul_r F O RT), !(rsum_mul_l F O RT), <- (D1_sum x A), <- (D1_sum y B); ring.
      - intros [A B].
        replace (two * (sf1 h (val x p) * D2 x p b (fun _ => 0) + sf2 h (val x p) / two * (D1 x p b * D1 x p b)))
          with (sf1 h (val x p) * (two * D2 x p b (fun _ => 0)) + sf2 h (val x p) * (D1 x p b * D1 x p b)) by (unfold twice_one in *; field; exact T).
        rewrite (IHx B).
        symmetry; etransitivity; [apply (rsum_ext F O w _ (fun c => (sf2 h (val x p) * D1 x p b) * (d1 x c p * b c) + sf1 h (val x p) * (E1 x c p b * b c))); intros; ring|].
        rewrite !(rsum_add F O RT), !(rsum_mul_l F O RT), <- (D1_sum x B); ring.
    Qed.
    Lemma D2_sum x : below w x ->
      D2 x p b q = rsum w (fun c => d1 x c p * q c) + rsum w (fun c => rsum w (fun d => d2 x c d p * (b c * b d))) / two.
    Proof using FT OR.
      intros H; rewrite (D2_linear x H); f_equal.
      pose proof (two_nz F O inv FT le OR) as T; pose proof (D2_twice x H) as E.
      replace (rsum w (fun c => rsum w (fun d => d2 x c d p * (b c * b d)))) with (two * D2 x p b (fun _ => 0)); [unfold twice_one in *; field; exact T|].
      rewrite E; apply rsum_ext; intros c _; rewrite (E1_sum x c H), <- (rsum_mul_r F O RT); apply rsum_ext; intros; ring.
    Qed.
  End Sums.

  (** Taylor's theorem along a path. *)
  Theorem val_expansion w p a b q x :
    (forall c, Peano.lt c w -> jet2 (p c) (a c) (b c) (q c)) -> below w x -> fine x a ->
    near (fun t => fine x (fun c => p c t)) /\
    jet2 (fun t => val x (fun c => p c t)) (val x a) (rsum w (fun c => d1 x c a * b c))
      (rsum w (fun c => d1 x c a * q c) + rsum w (fun c => rsum w (fun d => d2 x c d a * (b c * b d))) / two).
  Proof using FT OR.
    intros Hp B Fn; split; [apply fine_near with w a b q; assumption|].
    rewrite <- (D1_sum w a b x B), <- (D2_sum w a b q x B); apply val_jet with w; assumption.
  Qed.
End Calc2.
