(** The expected value of the equations along a decision rule. *)
From Verif Require Import Base Syntax Eval EvalSpec FactorySpec Nd SimSpec IndexingSpec DynSpec DynProofs DynProofs2 NdProofs OrderProofs FirstOrderSpec SecondOrderSpec CalcSpec CalcProofs CalcProofs2
  LinearizeSpec AccuracySpec AccuracyProofs.
From Coq Require Import Ring Field.

Lemma choose_below {A} (d : A) (Q : nat -> A -> Prop) n : (forall i, i < n -> exists a, Q i a) -> exists f, forall i, i < n -> Q i (f i).
Proof.
  induction n as [|n IH]; intros H; [exists (fun _ => d); intros i Hi; inversion Hi|].
  destruct IH as (f & Hf); [intros i Hi; apply H; lia|]; destruct (H n) as (a & Ha); [lia|].
  exists (fun i => if i =? n then a else f i); intros i Hi; destruct (Nat.eqb_spec i n) as [->|Ni]; [exact Ha|apply Hf; lia].
Qed.

Section Along.
  Variable F : Type.
  Variable O : rops F.
  Variable inv : F -> F.
  Variable FT : is_field O inv.
  Variable le : F -> F -> Prop.
  Hypothesis OR : is_ordered O le.
  Let FT' : field_theory (r0 O) (r1 O) (radd O) (rmul O) (rsub O) (ropp O) (rdiv O) inv eq := FT.
  Add Field Falong : FT'.
  Let RT : is_ring O := F_R FT'.
  Variable P : ops F.
  Variable endog stoch : list string.
  Variable params : list (string * F).
  Variable L : list (list Z).
  Variable ss : list F.
  Notation z := (r0 O).
  Notation l := (timed_vars L).
  Notation k := (List.length stoch).
  Notation w := (List.length (timed_vars L) + List.length stoch).
  Notation arg := (argument F L).
  Notation rsum := (Nd.rsum F O).
  Notation x0 := (rest_point F O stoch l ss).

  Lemma arg_timed lag now next u j p : nth_error l j = Some p -> arg lag now next u j = dated F lag now next p.
  Proof.
    intros Hj; unfold argument; assert (H : j < List.length l) by (apply nth_error_Some; congruence); apply Nat.ltb_lt in H; rewrite H.
    rewrite (nth_error_nth _ _ _ Hj); reflexivity.
  Qed.
  Lemma residual_value lag now next u e v : residual F P endog stoch params l e (map (arg lag now next u) (seq 0 w)) v ->
    equation_value F P endog stoch params lag now next u e v.
  Proof.
    unfold residual, equation_value; cbn zeta.
    assert (Y : forall j, j < w -> nth_error (map (arg lag now next u) (seq 0 w)) j = Some (arg lag now next u j)).
    { intros j Hj; rewrite nth_error_map, (nth_error_nth' _ 0) by (rewrite seq_length; exact Hj); rewrite seq_nth by exact Hj; reflexivity. }
    set (y := map _ _) in *; assert (Ly : List.length y = w) by (unfold y; rewrite map_length, seq_length; reflexivity).
    assert (T : forall j p v, nth_error l j = Some p -> nth_error (firstn (List.length l) y) j = Some v -> v = dated F lag now next p).
    { intros j p v' Hj Hv; assert (Hl : j < List.length l) by (apply nth_error_Some; congruence).
      assert (E : nth_error y j = Some v') by (rewrite <- (firstn_skipn (List.length l) y), nth_error_app1; [exact Hv|apply nth_error_Some; congruence]).
      rewrite Y in E by lia; injection E as <-; apply arg_timed, Hj. }
    assert (U : forall s v, nth_error (skipn (List.length l) y) s = Some v -> v = u s).
    { intros s v' Hv; assert (Hs : s < List.length (skipn (List.length l) y)) by (apply nth_error_Some; congruence); rewrite skipn_length in Hs.
      assert (E : nth_error y (List.length l + s) = Some v').
      { rewrite <- (firstn_skipn (List.length l) y), nth_error_app2; rewrite firstn_length; [|lia].
        replace (List.length l + s - Nat.min (List.length l) (List.length y)) with s by lia; exact Hv. }
      rewrite Y in E by lia; injection E as <-; unfold argument; destruct (Nat.ltb_spec (List.length l + s) (List.length l)); [lia|f_equal; lia]. }
    clearbody y; clear Y.
    induction 1 as [n|x n Hx|x q n Hx|o e n n' He IH Ho|o e1 e2 n n' n'' Hl IHl Hr IHr Ho|o e1 e2 n n' n'' Hl IHl Hr IHr Ho|f g e n n' Hf He IH Ho]; try (econstructor; eassumption).
    - constructor; unfold plain in Hx; destruct (lookup x params); [exact Hx|].
      destruct Hx as [(i & j & Hi & Hj & Hv)|(s & Hs & Hv)]; [left; exists i; split; [exact Hi|]; exact (T _ _ _ Hj Hv)|right; exists s; split; [exact Hs|exact (U _ _ Hv)]].
    - constructor; destruct Hx as (i & j & Hi & Hj & Hv); exists i; split; [exact Hi|exact (T _ _ _ Hj Hv)].
  Qed.
  Lemma arg_level lag now next u c : c < w ->
    arg (level F O ss lag) (level F O ss now) (level F O ss next) u c = radd O (nth c x0 z) (arg lag now next u c).
  Proof.
    intros Hc; unfold argument, rest_point; destruct (Nat.ltb_spec c (List.length l)) as [H|H].
    - rewrite app_nth1 by (rewrite map_length; exact H).
      rewrite (nth_indep _ z (nth (fst (0, 0%Z)) ss z)) by (rewrite map_length; exact H).
      rewrite (map_nth (fun p => nth (fst p) ss z) l (0, 0%Z)); unfold dated, level; destruct (snd (nth c l (0%nat, 0%Z)) =? -1)%Z, (snd (nth c l (0%nat, 0%Z)) =? 0)%Z; reflexivity.
    - rewrite app_nth2 by (rewrite map_length; exact H); rewrite map_length, nth_repeat; ring.
  Qed.

  (** Paths. *)
  Variable exprs : list (ast F).
  Variable J : nat -> nat -> F.
  Variable H : nat -> nat -> nat -> F.
  Hypothesis EX : forall (y : F -> list F) (b q : nat -> F),
        (forall t, List.length (y t) = w) ->
        (forall c, c < w -> jet2 F O le (fun t => nth c (y t) z) (nth c x0 z) (b c) (q c)) ->
      forall i e, nth_error exprs i = Some e ->
        exists r v, near F O le (fun t => residual F P endog stoch params l e (y t) (r t)) /\
          steady_residual F O P endog stoch params e ss v /\ (forall v', steady_residual F O P endog stoch params e ss v' -> v = v') /\
          jet2 F O le r v (rsum w (fun c => rmul O (J i c) (b c)))
            (radd O (rsum w (fun c => rmul O (J i c) (q c)))
               (rdiv O (rsum w (fun c => rsum w (fun d => rmul O (H i c d) (rmul O (b c) (b d))))) (twice_one O))).
  Hypothesis SS : Forall (fun e => steady_residual F O P endog stoch params e ss z) exprs.
  Variable g : rule F.
  Hypothesis Hn : rn g = List.length L.
  Hypothesis Hk : rk g = k.
  Variable N : nat.
  Variable p : nat -> F.
  Variable x u : nat -> F.
  Variable now : F -> nat -> F.
  Variable next : nat -> F -> nat -> F.
  Variable nb nc : nat -> F.
  Variable fb fc : nat -> nat -> F.
  Hypothesis Jn : forall v, v < rn g -> jet2 F O le (fun t => now t v) z (nb v) (nc v).
  Hypothesis Jf : forall q v, q < N -> v < rn g -> jet2 F O le (fun t => next q t v) z (fb q v) (fc q v).
  Let lag := fun t v => rmul O t (x v).
  Let sh := fun t s => rmul O t (u s).
  Notation zero := (fun _ : nat => r0 O).
  Lemma residuals i e : nth_error exprs i = Some e ->
    exists r : nat -> F -> F,
      (forall q, q < N -> near F O le (fun t => equation_value F P endog stoch params (level F O ss (lag t)) (level F O ss (now t)) (level F O ss (next q t)) (sh t) e (r q t))) /\
      jet2 F O le (fun t => rsum N (fun q => rmul O (p q) (r q t))) z
        (rsum N (fun q => rmul O (p q) (rsum w (fun c => rmul O (J i c) (arg x nb (fb q) u c)))))
        (rsum N (fun q => rmul O (p q) (radd O (rsum w (fun c => rmul O (J i c) (arg zero nc (fc q) zero c)))
               (rdiv O (rsum w (fun c => rsum w (fun d => rmul O (H i c d) (rmul O (arg x nb (fb q) u c) (arg x nb (fb q) u d))))) (twice_one O))))).
  Proof.
    intros He.
    assert (G : forall q, q < N -> exists r, near F O le (fun t => equation_value F P endog stoch params (level F O ss (lag t)) (level F O ss (now t)) (level F O ss (next q t)) (sh t) e (r t)) /\
      jet2 F O le r z (rsum w (fun c => rmul O (J i c) (arg x nb (fb q) u c)))
        (radd O (rsum w (fun c => rmul O (J i c) (arg zero nc (fc q) zero c)))
               (rdiv O (rsum w (fun c => rsum w (fun d => rmul O (H i c d) (rmul O (arg x nb (fb q) u c) (arg x nb (fb q) u d))))) (twice_one O)))).
    { intros q Hq.
      pose (y := fun t => map (arg (level F O ss (lag t)) (level F O ss (now t)) (level F O ss (next q t)) (sh t)) (seq 0 w)).
      destruct (EX y (arg x nb (fb q) u) (arg zero nc (fc q) zero)) with (i := i) (e := e) as (r & v & Nr & Tv & Uv & Jr); [| |exact He|].
      - intros t; unfold y; rewrite map_length, seq_length; reflexivity.
      - intros c Hc.
        assert (A : jet2 F O le (fun t => arg (lag t) (now t) (next q t) (sh t) c) (arg zero zero zero zero c) (arg x nb (fb q) u c) (arg zero nc (fc q) zero c)).
        { apply (arg_lift F L g Hn (fun f => jet2 F O le f) lag now (next q) sh zero x zero zero nb nc zero (fb q) (fc q) zero u zero); [rewrite Hk; exact Hc| | | |].
          - intros v _; apply (jet2_line F O inv FT le OR).
          - exact Jn.
          - intros v Hv; apply Jf; assumption.
          - intros v _; apply (jet2_line F O inv FT le OR). }
        apply (jet2_ext F O inv FT le OR) with (fun t => radd O (nth c x0 z) (arg (lag t) (now t) (next q t) (sh t) c)).
        + apply (near_all F O inv FT le OR); intros t; unfold y; rewrite <- arg_level by exact Hc.
          rewrite (nth_indep _ z (arg (level F O ss (lag t)) (level F O ss (now t)) (level F O ss (next q t)) (sh t) 0)) by (rewrite map_length, seq_length; exact Hc).
          rewrite (map_nth (arg _ _ _ _)), seq_nth by exact Hc; reflexivity.
        + eapply (jet2_eq F O le); [apply (jet2_add F O inv FT le OR (fun _ => nth c x0 z)); [apply (jet2_const F O inv FT le OR)|exact A]| | |].
          * unfold argument; destruct (c <? List.length l); [unfold dated; destruct (snd (nth c l (0%nat, 0%Z)) =? -1)%Z, (snd (nth c l (0%nat, 0%Z)) =? 0)%Z; ring|ring].
          * ring.
          * ring.
      - exists r; split.
        + revert Nr; apply near_mono; intros t; unfold y; apply residual_value.
        + rewrite (Uv z) in Jr; [exact Jr|]; apply (proj1 (Forall_forall _ _) SS), (nth_error_In _ _ He). }
    destruct (choose_below (fun _ => z) _ N G) as (r & Hr); exists r; split; [intros q Hq; apply (Hr q Hq)|].
    eapply (jet2_eq F O le); [apply (jet2_sum F O inv FT le OR N (fun q t => rmul O (p q) (r q t))); intros q Hq; apply (jet2_scale F O inv FT le OR), (Hr q Hq)| | |]; [|reflexivity|reflexivity].
    apply (rsum_all_zero F O RT); intros; ring.
  Qed.
  Lemma small_first : (forall i, i < List.length exprs -> rsum N (fun q => rmul O (p q) (rsum w (fun c => rmul O (J i c) (arg x nb (fb q) u c)))) = z) ->
    Forall (expected_small F O le P endog stoch params (small1 F O le) N p ss lag now next sh) exprs.
  Proof.
    intros H1; apply Forall_forall; intros e He; apply In_nth_error in He as (i & He).
    destruct (residuals i e He) as (r & Hr & Jr); exists r; split; [exact Hr|].
    rewrite H1 in Jr by (apply nth_error_Some; congruence); apply (jet2_jet1 F O inv FT le OR) in Jr; destruct Jr as (s & Vs & Es).
    exists s; split; [exact Vs|]; revert Es; apply near_mono; intros t E; change (Sum F O) with rsum; rewrite E; ring.
  Qed.
  Lemma small_second : (forall i, i < List.length exprs ->
      rsum N (fun q => rmul O (p q) (rsum w (fun c => rmul O (J i c) (arg x nb (fb q) u c)))) = z /\
      rsum N (fun q => rmul O (p q) (radd O (rsum w (fun c => rmul O (J i c) (arg zero nc (fc q) zero c)))
               (rdiv O (rsum w (fun c => rsum w (fun d => rmul O (H i c d) (rmul O (arg x nb (fb q) u c) (arg x nb (fb q) u d))))) (twice_one O)))) = z) ->
    Forall (expected_small F O le P endog stoch params (small2 F O le) N p ss lag now next sh) exprs.
  Proof.
    intros H1; apply Forall_forall; intros e He; apply In_nth_error in He as (i & He).
    destruct (residuals i e He) as (r & Hr & Jr); exists r; split; [exact Hr|].
    destruct (H1 i) as [E1 E2]; [apply nth_error_Some; congruence|]; rewrite E1, E2 in Jr; destruct Jr as (s & Vs & Es).
    exists s; split; [exact Vs|]; revert Es; apply near_mono; intros t E; change (Sum F O) with rsum; rewrite E; ring.
  Qed.
End Along.
