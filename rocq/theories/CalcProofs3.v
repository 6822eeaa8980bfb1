(** From expressions of the language to partial derivatives. *)
From Verif Require Import Base Syntax Nd SimSpec NdProofs OrderProofs Eval EvalSpec CalcSpec CalcProofs CalcProofs2.
From Coq Require Import Ring Field.

Section Bump.
  Variable F : Type.
  Variable O : rops F.
  Lemma bump_length x j h : List.length (bump F O x j h) = List.length x.
  Proof. revert j; induction x as [|a x IH]; intros [|j]; cbn [bump List.length]; try reflexivity; rewrite IH; reflexivity. Qed.
  Lemma bump_nth x : forall j h c, c < List.length x -> nth c (bump F O x j h) (r0 O) = if c =? j then radd O (nth c x (r0 O)) h else nth c x (r0 O).
  Proof.
    induction x as [|a x IH]; intros [|j] h [|c] Hc; cbn [bump List.length nth] in *; try lia; try reflexivity.
    rewrite IH by lia; reflexivity.
  Qed.
End Bump.

Section Calc3.
  Variable F : Type.
  Variable O : rops F.
  Variable inv : F -> F.
  Variable FT : is_field O inv.
  Variable le : F -> F -> Prop.
  Hypothesis OR : is_ordered O le.
  Let FT' : field_theory (r0 O) (r1 O) (radd O) (rmul O) (rsub O) (ropp O) (rdiv O) inv eq := FT.
  Add Field Fcalc3 : FT'.
  Let RT : is_ring O := F_R FT'.
  Notation near := (CalcSpec.near F O le).
  Notation ex := (CalcProofs2.ex F).
  Notation val := (CalcProofs2.val F O).
  Notation below := (CalcProofs2.below F O le).
  Notation fine := (CalcProofs2.fine F O).
  Notation d1 := (CalcProofs2.d1 F O).
  Notation d2 := (CalcProofs2.d2 F O).
  Notation partial := (CalcSpec.partial F O le).
  Notation partial2 := (CalcSpec.partial2 F O le).
  Notation bump := (CalcSpec.bump F O).
  Definition pt (y : list F) : nat -> F := fun c => nth c y (r0 O).

  Lemma val_ext w x p q : below w x -> (forall c, c < w -> p c = q c) -> val x p = val x q.
  Proof.
    intros B H; induction x as [k|i|x IHx y IHy|x IHx y IHy|h x IHx]; cbn [CalcProofs2.val CalcProofs2.below] in *; try reflexivity.
    - apply H, B.
    - rewrite IHx, IHy by tauto; reflexivity.
    - rewrite IHx, IHy by tauto; reflexivity.
    - rewrite IHx by tauto; reflexivity.
  Qed.
  Lemma fine_ext w x p q : below w x -> (forall c, c < w -> p c = q c) -> fine x p -> fine x q.
  Proof.
    intros B H; induction x as [k|i|x IHx y IHy|x IHx y IHy|h x IHx]; cbn [CalcProofs2.fine CalcProofs2.below] in *; try tauto.
    intros [A D]; split; [tauto|]; rewrite <- (val_ext w x p q) by tauto; exact D.
  Qed.
  Lemma d1_ext w x c p q : below w x -> (forall c, c < w -> p c = q c) -> d1 x c p = d1 x c q.
  Proof.
    intros B H; induction x as [k|i|x IHx y IHy|x IHx y IHy|h x IHx]; cbn [CalcProofs2.d1 CalcProofs2.below] in *; try reflexivity.
    - rewrite IHx, IHy by tauto; reflexivity.
    - rewrite IHx, IHy, (val_ext w x p q), (val_ext w y p q) by tauto; reflexivity.
    - rewrite IHx, (val_ext w x p q) by tauto; reflexivity.
  Qed.

  (** The names of an expression are constants or arguments. *)
  Variable P : ops F.
  Variable fns : string -> smooth_fun F.
  Variable pows : F -> smooth_fun F.
  Hypothesis HI : interprets F O le P fns pows.
  Variable fixed : string -> Prop.
  Variable w : nat.
  Variable rho : list F -> string -> F -> Prop.
  Variable rho_t : list F -> string -> Z -> F -> Prop.
  Variable a : list F.
  Hypothesis La : List.length a = w.
  Definition named (R : list F -> F -> Prop) (v : F) : Prop :=
    exists c, c < w /\ v = nth c a (r0 O) /\ forall y, List.length y = w -> R y (nth c y (r0 O)).
  Hypothesis leaf : forall x v, rho a x v -> (forall y, List.length y = w -> rho y x v) \/ (~ fixed x /\ named (fun y => rho y x) v).
  Hypothesis leaf_t : forall x k v, rho_t a x k v -> named (fun y => rho_t y x k) v.
  Notation value y := (EvalSpec.value F P (rho y) (rho_t y)).

  Lemma tame_ex e v : tame F O fns pows fixed (rho a) (rho_t a) e v ->
    exists x, below w x /\ fine x (pt a) /\ val x (pt a) = v /\
      (forall y, List.length y = w -> fine x (pt y) -> value y e (val x (pt y))) /\
      (constant F fixed e -> closed F x).
  Proof using HI La leaf leaf_t FT OR.
    assert (CS : forall e e' : ast F, (forall x, occurs F x e' -> occurs F x e) -> (forall x k, occurs_t F x k e' -> occurs_t F x k e) -> constant F fixed e -> constant F fixed e').
    { intros e1 e2 H1 H2 [C1 C2]; split; [intros x Hx; apply C1, H1, Hx|intros x k Hx; apply (C2 x k), H2, Hx]. }
    induction 1 as [v|x v Hx|x k v Hx|e v He (x & B & Fn & E & G & C)|e v He (x & B & Fn & E & G & C)
      |l r v u Hl (x & B & Fn & E & G & C) Hr (x' & B' & Fn' & E' & G' & C')
      |l r v u Hl (x & B & Fn & E & G & C) Hr (x' & B' & Fn' & E' & G' & C')
      |l r v u Hl (x & B & Fn & E & G & C) Hr (x' & B' & Fn' & E' & G' & C')
      |l r v u Hl (x & B & Fn & E & G & C) Hr (x' & B' & Fn' & E' & G' & C') N
      |l r v k Hl (x & B & Fn & E & G & C) Hr (x' & B' & Fn' & E' & G' & C') Hc Hd
      |l r v u Hl (x & B & Fn & E & G & C) Hr (x' & B' & Fn' & E' & G' & C') Hd Hd'
      |f g e v Hg He (x & B & Fn & E & G & C) Hd].
    - exists (Cst F v); repeat (split; [exact I || reflexivity|]); split; [intros; constructor|intros; exact I].
    - destruct (leaf x v Hx) as [H|[Nf (c & Hc & -> & H)]].
      + exists (Cst F v); repeat (split; [exact I || reflexivity|]); split; [intros; constructor; apply H; assumption|intros; exact I].
      + exists (Arg F c); split; [exact Hc|]; repeat (split; [exact I || reflexivity|]); split; [intros y Hy _; constructor; apply H; assumption|].
        intros [C _]; apply Nf, C; constructor.
    - destruct (leaf_t x k v Hx) as (c & Hc & -> & H).
      exists (Arg F c); split; [exact Hc|]; repeat (split; [exact I || reflexivity|]); split; [intros y Hy _; constructor; apply H; assumption|].
      intros [_ C]; destruct (C x k); constructor.
    - exists x; repeat (split; [assumption|]); split.
      + intros y Hy Hf; econstructor; [apply G; assumption|apply (i_pos _ _ _ _ _ _ HI)].
      + intros K; apply C; revert K; apply CS; intros; constructor; assumption.
    - exists (Times F (Cst F (ropp O (r1 O))) x); split; [split; [exact I|exact B]|]; split; [split; [exact I|exact Fn]|]; cbn [CalcProofs2.val].
      split; [rewrite E; ring|]; split.
      + intros y Hy [_ Hf]; econstructor; [apply G; assumption|rewrite (i_neg _ _ _ _ _ _ HI); f_equal; ring].
      + intros K; split; [exact I|]; apply C; revert K; apply CS; intros; constructor; assumption.
    - exists (Plus F x x'); split; [split; assumption|]; split; [split; assumption|]; cbn [CalcProofs2.val]; split; [rewrite E, E'; reflexivity|]; split.
      + intros y Hy [Hf Hf']; econstructor; [apply G; assumption|apply G'; assumption|apply (i_add _ _ _ _ _ _ HI)].
      + intros K; split; [apply C|apply C']; revert K; apply CS; intros; solve [constructor; assumption|apply O_binr; assumption|apply T_binr; assumption].
    - exists (Plus F x (Times F (Cst F (ropp O (r1 O))) x')); split; [exact (conj B (conj I B'))|]; split; [exact (conj Fn (conj I Fn'))|]; cbn [CalcProofs2.val]; split; [rewrite E, E'; ring|]; split.
      + intros y Hy [Hf [_ Hf']]; econstructor; [apply G; assumption|apply G'; assumption|rewrite (i_sub _ _ _ _ _ _ HI); f_equal; ring].
      + intros K; split; [apply C|split; [exact I|apply C']]; revert K; apply CS; intros; solve [constructor; assumption|apply O_binr; assumption|apply T_binr; assumption].
    - exists (Times F x x'); split; [split; assumption|]; split; [split; assumption|]; cbn [CalcProofs2.val]; split; [rewrite E, E'; reflexivity|]; split.
      + intros y Hy [Hf Hf']; econstructor; [apply G; assumption|apply G'; assumption|apply (i_mul _ _ _ _ _ _ HI)].
      + intros K; split; [apply C|apply C']; revert K; apply CS; intros; solve [constructor; assumption|apply O_binr; assumption|apply T_binr; assumption].
    - exists (Times F x (App F (recip F O) x')); split; [exact (conj B (conj (recip_smooth F O inv FT le OR) B'))|].
      split; [refine (conj Fn (conj Fn' _)); cbn [recip sdom]; rewrite E'; exact N|]; cbn [CalcProofs2.val recip sf]; split; [rewrite E, E'; field; exact N|]; split.
      + intros y Hy [Hf [Hf' Hn]]; econstructor; [apply G; assumption|apply G'; assumption|rewrite (i_div _ _ _ _ _ _ HI) by exact Hn; f_equal; field; exact Hn].
      + intros K; split; [apply C|apply C']; revert K; apply CS; intros; solve [constructor; assumption|apply O_binr; assumption|apply T_binr; assumption].
    - exists (App F (pows k) x); split; [split; [apply (i_smooth_pow _ _ _ _ _ _ HI)|exact B]|]; split; [split; [exact Fn|rewrite E; exact Hd]|]; cbn [CalcProofs2.val]; split; [rewrite E; reflexivity|]; split.
      + intros y Hy [Hf Hk]; econstructor; [apply G; assumption| |apply (i_pow _ _ _ _ _ _ HI); exact Hk].
        assert (Ek : val x' (pt y) = k) by (rewrite (val_closed F O x' (pt y) (pt a) (C' Hc)); exact E').
        rewrite <- Ek; apply G'; [exact Hy|].
        assert (Fc : forall z p q, closed F z -> fine z p -> fine z q).
        { clear; intros z p q; induction z as [| |z IHz z' IHz'|z IHz z' IHz'|h z IHz]; cbn [closed CalcProofs2.fine]; try tauto; intros Cz [A B]; split; [tauto|]; rewrite (val_closed F O z q p Cz); exact B. }
        apply (Fc x' (pt a)); [apply C', Hc|exact Fn'].
      + intros K; apply C; revert K; apply CS; intros; constructor; assumption.
    - exists (App F (fns "exp") (Times F x' (App F (fns "log") x))); split; [exact (conj (i_smooth _ _ _ _ _ _ HI _) (conj B' (conj (i_smooth _ _ _ _ _ _ HI _) B)))|].
      split; [refine (conj (conj Fn' (conj Fn _)) _); cbn [CalcProofs2.val]; rewrite ?E, ?E'; assumption|]; cbn [CalcProofs2.val]; split; [rewrite E, E'; reflexivity|]; split.
      + intros y Hy [[Hf' [Hf H1]] H2]; econstructor; [apply G; assumption|apply G'; assumption|apply (i_power _ _ _ _ _ _ HI); assumption].
      + intros K; split; [apply C'|apply C]; revert K; apply CS; intros; solve [constructor; assumption|apply O_binr; assumption|apply T_binr; assumption].
    - exists (App F (fns g) x); split; [split; [apply (i_smooth _ _ _ _ _ _ HI)|exact B]|]; split; [split; [exact Fn|rewrite E; exact Hd]|]; cbn [CalcProofs2.val]; split; [rewrite E; reflexivity|]; split.
      + intros y Hy [Hf Hk]; econstructor; [exact Hg|apply G; assumption|apply (i_fun _ _ _ _ _ _ HI); exact Hk].
      + intros K; apply C; revert K; apply CS; intros; constructor; assumption.
  Qed.

  (** Partial derivatives of a quantity that an expression computes. *)
  Section Ex.
    Variable x : ex.
    Hypothesis B : below w x.
    Variable R : list F -> F -> Prop.
    Hypothesis HR : forall y, List.length y = w -> fine x (pt y) -> R y (val x (pt y)).
    Lemma bump_path y d : List.length y = w -> forall c, c < w ->
      CalcSpec.jet2 F O le (fun t => pt (bump y d t) c) (pt y c) (if c =? d then r1 O else r0 O) (r0 O).
    Proof.
      intros Hy c Hc.
      apply (jet2_ext F O inv FT le OR) with (fun t => radd O (radd O (pt y c) (rmul O (if c =? d then r1 O else r0 O) t)) (rmul O (r0 O) (rmul O t t))); [|apply (jet2_poly F O inv FT le OR)].
      apply (near_all F O inv FT le OR); intros t; unfold pt; rewrite bump_nth by (rewrite Hy; exact Hc); destruct (c =? d); ring.
    Qed.
    Lemma sum_unit f d : d < w -> rsum F O w (fun c => rmul O (f c) (if c =? d then r1 O else r0 O)) = f d.
    Proof.
      intros Hd; rewrite (rsum_single F O RT w d); [rewrite Nat.eqb_refl; ring|exact Hd|].
      intros i _ N; destruct (Nat.eqb_spec i d); [contradiction|ring].
    Qed.
    Lemma ex_near y d : List.length y = w -> fine x (pt y) -> near (fun t => fine x (pt (bump y d t))).
    Proof.
      intros Hy Fy; destruct (val_expansion F O inv FT le OR w (fun c t => pt (bump y d t) c) (pt y) _ _ x (bump_path y d Hy) B Fy) as [N _]; exact N.
    Qed.
    Lemma ex_partial y c : List.length y = w -> fine x (pt y) -> c < w -> partial R y c (d1 x c (pt y)).
    Proof.
      intros Hy Fy Hc; destruct (val_expansion F O inv FT le OR w (fun i t => pt (bump y c t) i) (pt y) _ _ x (bump_path y c Hy) B Fy) as [N J].
      apply (jet2_jet1 F O inv FT le OR) in J; rewrite (sum_unit (fun i => d1 x i (pt y)) c Hc) in J; destruct J as (s & V & E).
      exists (val x (pt y)), s; split; [exact V|].
      apply (near_two F O inv FT le OR) with (2 := N) (3 := E); intros t Ft <-; apply HR; [rewrite bump_length; exact Hy|exact Ft].
    Qed.
    Lemma ex_partial2 y c d : List.length y = w -> fine x (pt y) -> c < w -> d < w -> partial2 R y c d (d2 x c d (pt y)).
    Proof.
      intros Hy Fy Hc Hd; pose proof (d1_jet F O inv FT le OR w (fun i t => pt (bump y d t) i) (pt y) _ _ (bump_path y d Hy) x c B Fy) as J.
      rewrite (E1_sum F O inv FT le w (pt y) _ x c B), (sum_unit (fun i => d2 x c i (pt y)) d Hd) in J; destruct J as (s & V & E).
      exists (d1 x c (pt y)), s; split; [exact V|].
      apply (near_two F O inv FT le OR) with (2 := ex_near y d Hy Fy) (3 := E); intros t Ft <-.
      apply ex_partial; [rewrite bump_length; exact Hy|exact Ft|exact Hc].
    Qed.
  End Ex.
End Calc3.
