(** The expected residual along a decision rule, to second order. *)
From Verif Require Import Base Nd SimSpec IndexingSpec NdProofs OrderProofs FirstOrderSpec SecondOrderSpec CalcSpec CalcProofs CalcProofs2.
From Coq Require Import Ring Field Permutation.

Section Accuracy.
  Variable F : Type.
  Variable O : rops F.
  Variable inv : F -> F.
  Variable FT : is_field O inv.
  Variable le : F -> F -> Prop.
  Hypothesis OR : is_ordered O le.
  Let FT' : field_theory (r0 O) (r1 O) (radd O) (rmul O) (rsub O) (ropp O) (rdiv O) inv eq := FT.
  Add Field Facc : FT'.
  Let RT : is_ring O := F_R FT'.
  Notation rsum := (Nd.rsum F O).
  Declare Scope R_scope. Delimit Scope R_scope with R.
  Notation "x + y" := (radd O x y) : R_scope.
  Notation "x * y" := (rmul O x y) : R_scope.
  Notation z := (r0 O).
  Notation two := (twice_one O).
  Notation zero := (fun _ : nat => r0 O).
  Notation jet1 := (CalcSpec.jet1 F O le).
  Notation jet2 := (CalcSpec.jet2 F O le).
  Local Open Scope R_scope.

  Lemma jet2_sum n f a b c : (forall j, lt j n -> jet2 (f j) (a j) (b j) (c j)) ->
    jet2 (fun t => rsum n (fun j => f j t)) (rsum n a) (rsum n b) (rsum n c).
  Proof.
    induction n as [|n IH]; intros H; cbn [Nd.rsum]; [apply (jet2_const F O inv FT le OR)|].
    apply (jet2_add F O inv FT le OR (fun t => rsum n (fun j => f j t)) (f n)); [apply IH; intros j Hj; apply H; lia|apply H; lia].
  Qed.
  Lemma jet1_sum n f a b : (forall j, lt j n -> jet1 (f j) (a j) (b j)) ->
    jet1 (fun t => rsum n (fun j => f j t)) (rsum n a) (rsum n b).
  Proof.
    induction n as [|n IH]; intros H; cbn [Nd.rsum]; [apply (jet1_const F O inv FT le OR)|].
    apply (jet1_add F O inv FT le OR (fun t => rsum n (fun j => f j t)) (f n)); [apply IH; intros j Hj; apply H; lia|apply H; lia].
  Qed.
  Lemma jet2_scale k f a b c : jet2 f a b c -> jet2 (fun t => k * f t) (k * a) (k * b) (k * c).
  Proof.
    intros H; pose proof (jet2_mul F O inv FT le OR (fun _ => k) f k z z a b c (jet2_const F O inv FT le OR k) H) as G.
    replace (k * b) with (z * a + k * b) by ring; replace (k * c) with (z * a + z * b + k * c) by ring; exact G.
  Qed.
  Lemma jet1_scale k f a b : jet1 f a b -> jet1 (fun t => k * f t) (k * a) (k * b).
  Proof.
    intros H; pose proof (jet1_mul F O inv FT le OR (fun _ => k) f k z a b (jet1_const F O inv FT le OR k) H) as G.
    replace (k * b) with (z * a + k * b) by ring; exact G.
  Qed.
  (** Products of small quantities. *)
  Lemma jet2_prod f g b c b' c' : jet2 f z b c -> jet2 g z b' c' -> jet2 (fun t => f t * g t) z z (b * b').
  Proof.
    intros H G; pose proof (jet2_mul F O inv FT le OR f g z b c z b' c' H G) as K.
    replace z with (z * z) at 1 by ring; replace (b * b') with (c * z + b * b' + z * c') by ring; replace z with (b * z + z * b') at 3 by ring; exact K.
  Qed.
  Lemma jet2_line b : jet2 (fun t => t * b) z b z.
  Proof. apply (jet2_ext F O inv FT le OR) with (fun t => z + b * t + z * (t * t)); [apply (near_all F O inv FT le OR); intros; ring|apply (jet2_poly F O inv FT le OR)]. Qed.
  Lemma jet2_square d : jet2 (fun t => d * (t * t)) z z d.
  Proof. apply (jet2_ext F O inv FT le OR) with (fun t => z + z * t + d * (t * t)); [apply (near_all F O inv FT le OR); intros; ring|apply (jet2_poly F O inv FT le OR)]. Qed.
  Lemma jet2_eq f a b c a' b' c' : jet2 f a b c -> a = a' -> b = b' -> c = c' -> jet2 f a' b' c'.
  Proof. intros H -> -> ->; exact H. Qed.
  Lemma jet1_eq f a b a' b' : jet1 f a b -> a = a' -> b = b' -> jet1 f a' b'.
  Proof. intros H -> ->; exact H. Qed.

  Lemma sum2_zero n m : rsum n (fun _ => rsum m (fun _ => z)) = z.
  Proof. apply (rsum_all_zero F O RT); intros; apply (rsum_zero F O RT). Qed.

  Variable L : list (list Z).
  Variable g : rule F.
  Hypothesis Pg : proper g.
  Hypothesis Hn : rn g = List.length L.
  Notation n := (rn g). Notation s := (rs g). Notation k := (rk g).
  Notation tl := (List.length (timed_vars L)).
  Notation w := (Nat.add (List.length (timed_vars L)) (rk g)).
  Notation arg := (argument F L).

  Lemma spread (f : nat -> F) : exists after, forall i, lt i n -> after (var_at g i) = f i.
  Proof.
    destruct Pg as (Pp & _); unfold var_at.
    assert (Nd : NoDup (rorder g)) by (apply (Permutation_NoDup (Permutation_sym Pp)), seq_NoDup).
    assert (Ln : List.length (rorder g) = n) by (rewrite (Permutation_length Pp), seq_length; reflexivity).
    revert f; generalize (rorder g) as o, (rn g) as m, Nd, Ln; clear; intros o m Nd Ln f.
    revert m f Ln; induction o as [|v o IH]; intros m f Ln; [exists f; intros i Hi; subst m; inversion Hi|].
    inversion Nd as [|? ? Hv Hd]; subst; cbn [List.length].
    destruct (IH Hd _ (fun i => f (S i)) eq_refl) as (h & Hh).
    exists (fun u => if u =? v then f 0%nat else h u); intros [|i] Hi; cbn [nth]; [rewrite Nat.eqb_refl; reflexivity|].
    destruct (Nat.eqb_spec (nth i o 0%nat) v) as [E|_]; [exfalso; apply Hv; rewrite <- E; apply nth_In; lia|apply Hh; lia].
  Qed.
  Lemma choose (Q : nat -> (nat -> F) -> Prop) : (forall l, exists r, Q l r) -> forall q, exists r, forall l, lt l q -> Q l (r l).
  Proof.
    intros H q; induction q as [|q (r & IH)]; [exists (fun _ => zero); intros l Hl; inversion Hl|].
    destruct (H q) as (r' & Hr'); exists (fun l => if l =? q then r' else r l); intros l Hl.
    destruct (Nat.eqb_spec l q) as [->|Nl]; [exact Hr'|apply IH; lia].
  Qed.
  Lemma every_var v : lt v n -> exists i, lt i n /\ var_at g i = v.
  Proof.
    intros Hv; destruct Pg as (Pp & _).
    assert (H : In v (rorder g)) by (apply (Permutation_in _ (Permutation_sym Pp)), in_seq; lia).
    apply In_nth with (d := 0%nat) in H as (i & Hi & E); exists i; split; [|exact E].
    rewrite (Permutation_length Pp), seq_length in Hi; exact Hi.
  Qed.
  Lemma state_lt j : lt j s -> lt (state_at g j) n.
  Proof.
    intros Hj; destruct Pg as (Pp & Ls & _ & Hs & _); unfold state_at.
    assert (H : lt (nth j (rstate g) 0%nat) n) by (apply Hs, nth_In; lia).
    assert (In (nth (nth j (rstate g) 0%nat) (rorder g) 0%nat) (seq 0 n)); [|rewrite in_seq in *; lia].
    apply (Permutation_in _ Pp), nth_In; rewrite (Permutation_length Pp), seq_length; exact H.
  Qed.

  (** Arguments. *)
  Lemma tv_lt c : lt c tl -> lt (fst (nth c (timed_vars L) (0%nat, 0%Z))) n.
  Proof.
    intros Hc; rewrite Hn; assert (H : In (nth c (timed_vars L) (0%nat, 0%Z)) (timed_vars L)) by (apply nth_In, Hc).
    unfold timed_vars in H at 2; apply in_flat_map in H as (q & _ & H); apply in_map_iff in H as (i & E & Hi); rewrite <- E; cbn [fst].
    apply filter_In in Hi as [Hi _]; apply in_seq in Hi; lia.
  Qed.
  Lemma arg_lift (Q : (F -> F) -> F -> F -> F -> Prop) (lag now next u : F -> nat -> F) a1 b1 c1 a2 b2 c2 a3 b3 c3 a4 b4 c4 c : lt c w ->
    (forall v, lt v n -> Q (fun t => lag t v) (a1 v) (b1 v) (c1 v)) -> (forall v, lt v n -> Q (fun t => now t v) (a2 v) (b2 v) (c2 v)) ->
    (forall v, lt v n -> Q (fun t => next t v) (a3 v) (b3 v) (c3 v)) -> (forall l, lt l k -> Q (fun t => u t l) (a4 l) (b4 l) (c4 l)) ->
    Q (fun t => arg (lag t) (now t) (next t) (u t) c) (arg a1 a2 a3 a4 c) (arg b1 b2 b3 b4 c) (arg c1 c2 c3 c4 c).
  Proof.
    intros Hc H1 H2 H3 H4; unfold argument; destruct (Nat.ltb_spec c tl) as [H|H]; [|apply H4; lia].
    pose proof (tv_lt c H) as Hv; unfold dated; destruct (snd _ =? -1)%Z; [apply H1, Hv|]; destruct (snd _ =? 0)%Z; [apply H2, Hv|apply H3, Hv].
  Qed.
  Lemma arg_ext lag now next u lag' now' next' u' c : lt c w ->
    (forall v, lt v n -> lag v = lag' v) -> (forall v, lt v n -> now v = now' v) -> (forall v, lt v n -> next v = next' v) -> (forall l, lt l k -> u l = u' l) ->
    arg lag now next u c = arg lag' now' next' u' c.
  Proof.
    intros Hc H1 H2 H3 H4; unfold argument; destruct (Nat.ltb_spec c tl) as [H|H]; [|apply H4; lia].
    pose proof (tv_lt c H) as Hv; unfold dated; destruct (snd _ =? -1)%Z; [apply H1, Hv|]; destruct (snd _ =? 0)%Z; [apply H2, Hv|apply H3, Hv].
  Qed.
  Lemma arg_add lag now next u lag' now' next' u' c :
    arg lag now next u c + arg lag' now' next' u' c = arg (fun v => lag v + lag' v) (fun v => now v + now' v) (fun v => next v + next' v) (fun l => u l + u' l) c.
  Proof. unfold argument; destruct (c <? tl); [unfold dated; destruct (snd (nth c (timed_vars L) (0%nat, 0%Z)) =? -1)%Z, (snd (nth c (timed_vars L) (0%nat, 0%Z)) =? 0)%Z; reflexivity|reflexivity]. Qed.
  Lemma arg_mul q lag now next u c :
    q * arg lag now next u c = arg (fun v => q * lag v) (fun v => q * now v) (fun v => q * next v) (fun l => q * u l) c.
  Proof. unfold argument; destruct (c <? tl); [unfold dated; destruct (snd (nth c (timed_vars L) (0%nat, 0%Z)) =? -1)%Z, (snd (nth c (timed_vars L) (0%nat, 0%Z)) =? 0)%Z; reflexivity|reflexivity]. Qed.
  Lemma arg_sum N (lag now next u : nat -> nat -> F) c :
    rsum N (fun i => arg (lag i) (now i) (next i) (u i) c) =
    arg (fun v => rsum N (fun i => lag i v)) (fun v => rsum N (fun i => now i v)) (fun v => rsum N (fun i => next i v)) (fun l => rsum N (fun i => u i l)) c.
  Proof. unfold argument; destruct (c <? tl); [unfold dated; destruct (snd (nth c (timed_vars L) (0%nat, 0%Z)) =? -1)%Z, (snd (nth c (timed_vars L) (0%nat, 0%Z)) =? 0)%Z; reflexivity|reflexivity]. Qed.

  (** A distribution of tomorrow's shocks. *)
  Variable N : nat.
  Variable p : nat -> F.
  Variable e : nat -> nat -> F.
  Hypothesis Hp : rsum N p = r1 O.
  Hypothesis Hm : forall l, lt l k -> rsum N (fun i => p i * e i l) = z.
  Lemma expect_const c : rsum N (fun i => p i * c) = c.
  Proof. rewrite (rsum_mul_r F O RT), Hp; ring. Qed.
  Lemma expect_linear (r : nat -> F) : rsum N (fun i => p i * rsum k (fun l => r l * e i l)) = z.
  Proof.
    rewrite (rsum_ext F O N _ (fun i => rsum k (fun l => r l * (p i * e i l)))) by (intros i _; rewrite <- (rsum_mul_l F O RT); apply rsum_ext; intros; ring).
    rewrite (rsum_swap F O RT); apply (rsum_all_zero F O RT); intros l Hl; rewrite (rsum_mul_l F O RT), (Hm l Hl); ring.
  Qed.

  Lemma replies : exists rep : nat -> nat -> F, forall l i, lt l k -> lt i n -> rep l (var_at g i) = ru g i l.
  Proof.
    destruct (choose (fun l r => forall i, lt i n -> r (var_at g i) = ru g i l) (fun l => spread (fun i => ru g i l)) k) as (r & H).
    exists r; intros l i Hl; apply (H l Hl).
  Qed.
  Section Means.
    Variable rep : nat -> nat -> F.
    Variable fm : nat -> F.
    Definition outcome (q v : nat) : F := fm v + rsum k (fun l => rep l v * e q l).
    Lemma outcome_mean v : rsum N (fun q => p q * outcome q v) = fm v.
    Proof.
      unfold outcome; rewrite (rsum_ext F O N _ (fun q => p q * fm v + p q * rsum k (fun l => rep l v * e q l))) by (intros; ring).
      rewrite (rsum_add F O RT), expect_const, expect_linear; ring.
    Qed.
    Variable J : nat -> nat -> F.
    Hypothesis S1 : solves_model F O L J g.
    Variable x u nb : nat -> F.
    Hypothesis Dn : decides F O g x u nb.
    Hypothesis Df : decides F O g nb zero fm.
    Lemma linear_arg i x1 x2 x3 x4 : linear_equation F O L k J x1 x2 x3 x4 i -> rsum w (fun c => J i c * arg x1 x2 x3 x4 c) = z.
    Proof.
      unfold linear_equation; change (Sum F O) with rsum; intros <-; rewrite (rsum_split F O RT tl k); f_equal; apply rsum_ext; intros c Hc; unfold argument.
      - destruct (Nat.ltb_spec c tl); [reflexivity|lia].
      - destruct (Nat.ltb_spec (Nat.add tl c) tl); [lia|]; replace (Nat.sub (Nat.add tl c) tl) with c by lia; reflexivity.
    Qed.
    Lemma expect_arg (h x1 x2 x4 : nat -> F) (x3 : nat -> nat -> F) :
      rsum N (fun q => p q * rsum w (fun c => h c * arg x1 x2 (x3 q) x4 c)) = rsum w (fun c => h c * arg x1 x2 (fun v => rsum N (fun q => p q * x3 q v)) x4 c).
    Proof.
      rewrite (rsum_ext F O N _ (fun q => rsum w (fun c => h c * (p q * arg x1 x2 (x3 q) x4 c)))) by (intros q _; rewrite <- (rsum_mul_l F O RT); apply rsum_ext; intros; ring).
      rewrite (rsum_swap F O RT); apply rsum_ext; intros c Hc; rewrite (rsum_mul_l F O RT); f_equal.
      rewrite (rsum_ext F O N _ (fun q => arg (fun v => p q * x1 v) (fun v => p q * x2 v) (fun v => p q * x3 q v) (fun l => p q * x4 l) c)) by (intros; apply arg_mul).
      rewrite arg_sum; apply arg_ext; [exact Hc| | | |]; intros v _; [apply expect_const|apply expect_const|reflexivity|apply expect_const].
    Qed.
    Lemma expect_first i : lt i (List.length L) -> rsum N (fun q => p q * rsum w (fun c => J i c * arg x nb (outcome q) u c)) = z.
    Proof.
      intros Hi; rewrite (expect_arg (J i)), (rsum_ext F O w _ (fun c => J i c * arg x nb fm u c)) by (intros c Hc; f_equal; apply arg_ext; [exact Hc| | | |]; intros; [reflexivity|reflexivity|apply outcome_mean|reflexivity]).
      apply linear_arg, (S1 x nb fm u Dn Df i Hi).
    Qed.
  End Means.

  (** First order. *)
  Section First.
    Variable J : nat -> nat -> F.
    Hypothesis S1 : solves_model F O L J g.
    Variable x u : nat -> F.
    Variable now : F -> nat -> F.
    Variable next : nat -> F -> nat -> F.
    Hypothesis Hnow : forall t, decides F O g (fun v => t * x v) (fun l => t * u l) (now t).
    Hypothesis Hnext : forall i t, lt i N -> decides F O g (now t) (fun l => t * e i l) (next i t).
    Lemma first_jets : exists nb fb,
      (forall v, lt v n -> jet2 (fun t => now t v) z (nb v) z) /\
      (forall i v, lt i N -> lt v n -> jet2 (fun t => next i t v) z (fb i v) z) /\
      forall i, lt i (List.length L) -> rsum N (fun q => p q * rsum w (fun c => J i c * arg x nb (fb q) u c)) = z.
    Proof.
      destruct (spread (fun i => rsum s (fun j => ry g i j * x (state_at g j)) + rsum k (fun l => ru g i l * u l))) as (nb & Hnb).
      assert (Enow : forall t v, lt v n -> now t v = t * nb v).
      { intros t v Hv; destruct (every_var v Hv) as (i & Hi & <-); rewrite (Hnow t i Hi), (Hnb i Hi); change (Sum F O) with rsum.
        replace (t * (rsum s (fun j => ry g i j * x (state_at g j)) + rsum k (fun l => ru g i l * u l)))
          with (t * rsum s (fun j => ry g i j * x (state_at g j)) + t * rsum k (fun l => ru g i l * u l)) by ring.
        rewrite <- !(rsum_mul_l F O RT); f_equal; apply rsum_ext; intros; ring. }
      destruct (spread (fun i => rsum s (fun j => ry g i j * nb (state_at g j)))) as (fm & Hfm).
      destruct replies as (rep & Hrep).
      assert (Enext : forall q t v, lt q N -> lt v n -> next q t v = t * outcome rep fm q v).
      { intros q t v Hq Hv; destruct (every_var v Hv) as (i & Hi & <-); rewrite (Hnext q t Hq i Hi); change (Sum F O) with rsum; unfold outcome; rewrite (Hfm i Hi).
        replace (t * (rsum s (fun j => ry g i j * nb (state_at g j)) + rsum k (fun l => rep l (var_at g i) * e q l)))
          with (t * rsum s (fun j => ry g i j * nb (state_at g j)) + t * rsum k (fun l => rep l (var_at g i) * e q l)) by ring.
        rewrite <- !(rsum_mul_l F O RT); f_equal; apply rsum_ext; intros j Hj; [rewrite Enow by (apply state_lt, Hj); ring|rewrite Hrep by assumption; ring]. }
      exists nb, (outcome rep fm); split; [|split].
      - intros v Hv; apply (jet2_ext F O inv FT le OR) with (fun t => t * nb v); [apply (near_all F O inv FT le OR); intros t; symmetry; apply Enow, Hv|apply jet2_line].
      - intros i v Hi Hv; apply (jet2_ext F O inv FT le OR) with (fun t => t * outcome rep fm i v); [apply (near_all F O inv FT le OR); intros t; symmetry; apply Enext; assumption|apply jet2_line].
      - intros i Hi; apply expect_first; [exact S1| | |exact Hi].
        + intros j Hj; apply Hnb, Hj.
        + intros j Hj; rewrite (Hfm j Hj); change (Sum F O) with rsum; rewrite (rsum_all_zero F O RT k) by (intros; ring); ring.
    Qed.
  End First.

  (** Second order. *)
  Section Second.
    Variable V : nat -> nat -> F.
    Hypothesis HV : forall l m, lt l k -> lt m k -> rsum N (fun i => p i * (e i l * e i m)) = V l m.
    Variable J : nat -> nat -> F.
    Variable H : nat -> nat -> nat -> F.
    Variable XX XU UU Axx Axu Auu : nat -> nat -> nat -> F.
    Variable C D : nat -> F.
    Hypothesis Two : two <> z.
    Hypothesis Exx : forall i a b, lt i n -> lt a s -> lt b s -> two * Axx i a b = XX i a b.
    Hypothesis Exu : forall i a l, lt i n -> lt a s -> lt l k -> Axu i a l = XU i a l.
    Hypothesis Euu : forall i l m, lt i n -> lt l k -> lt m k -> two * Auu i l m = UU i l m.
    Hypothesis Edl : forall i, lt i n -> two * D i = C i.
    Hypothesis S1 : solves_model F O L J g.
    Hypothesis S2 : solves_second F O L J H g XX XU UU.
    Hypothesis SC : solves_uncertainty F O L J H g UU V C.
    Definition bend (i : nat) (b u : nat -> F) : F :=
      rsum s (fun a => rsum s (fun c => Axx i a c * (b (state_at g a) * b (state_at g c)))) +
      rsum s (fun a => rsum k (fun l => Axu i a l * (b (state_at g a) * u l))) +
      rsum k (fun l => rsum k (fun m => Auu i l m * (u l * u m))).
    Definition line (i : nat) (b u : nat -> F) : F :=
      rsum s (fun j => ry g i j * b (state_at g j)) + rsum k (fun l => ru g i l * u l).
    Variable x u : nat -> F.
    Variable now : F -> nat -> F.
    Variable next : nat -> F -> nat -> F.
    Hypothesis Hnow : forall t i, lt i n -> now t (var_at g i) = line i (fun v => t * x v) (fun l => t * u l) + bend i (fun v => t * x v) (fun l => t * u l) + D i * (t * t).
    Hypothesis Hnext : forall q t i, lt q N -> lt i n -> next q t (var_at g i) = line i (now t) (fun l => t * e q l) + bend i (now t) (fun l => t * e q l) + D i * (t * t).

    Lemma move_jet b c r (mv : F -> nat -> F) sh : lt r n ->
      (forall v, lt v n -> jet2 (fun t => mv t v) z (b v) (c v)) ->
      jet2 (fun t => line r (mv t) (fun l => t * sh l) + bend r (mv t) (fun l => t * sh l) + D r * (t * t)) z
        (line r b sh) (line r c zero + bend r b sh + D r).
    Proof.
      intros Hr Hv; unfold line, bend.
      assert (Hu : forall l, jet2 (fun t => t * sh l) z (sh l) z) by (intros; apply jet2_line).
      assert (Hs : forall j, lt j s -> jet2 (fun t => mv t (state_at g j)) z (b (state_at g j)) (c (state_at g j))) by (intros; apply Hv, state_lt; assumption).
      eapply jet2_eq.
      { apply (jet2_add F O inv FT le OR); [|apply jet2_square].
        apply (jet2_add F O inv FT le OR).
        - apply (jet2_add F O inv FT le OR);
            [apply (jet2_sum s (fun j t => ry g r j * mv t (state_at g j))); intros j Hj; apply jet2_scale, Hs, Hj
            |apply (jet2_sum k (fun l t => ru g r l * (t * sh l))); intros l Hl; apply jet2_scale, Hu].
        - apply (jet2_add F O inv FT le OR); [apply (jet2_add F O inv FT le OR)|].
          + apply (jet2_sum s (fun a t => rsum s (fun c0 => Axx r a c0 * (mv t (state_at g a) * mv t (state_at g c0))))); intros a Ha.
            apply (jet2_sum s (fun c0 t => Axx r a c0 * (mv t (state_at g a) * mv t (state_at g c0)))); intros c0 Hc.
            apply jet2_scale; eapply jet2_prod; apply Hs; assumption.
          + apply (jet2_sum s (fun a t => rsum k (fun l => Axu r a l * (mv t (state_at g a) * (t * sh l))))); intros a Ha.
            apply (jet2_sum k (fun l t => Axu r a l * (mv t (state_at g a) * (t * sh l)))); intros l Hl.
            apply jet2_scale; eapply jet2_prod; [apply Hs, Ha|apply Hu].
          + apply (jet2_sum k (fun l t => rsum k (fun m => Auu r l m * (t * sh l * (t * sh m))))); intros l Hl.
            apply (jet2_sum k (fun m t => Auu r l m * (t * sh l * (t * sh m)))); intros m Hm'.
            apply jet2_scale; eapply jet2_prod; apply Hu. }
      - rewrite !(rsum_all_zero F O RT) by (intros; try ring; apply (rsum_all_zero F O RT); intros; ring); ring.
      - rewrite (rsum_all_zero F O RT s (fun j => rsum s _)), (rsum_all_zero F O RT s (fun j => rsum k _)), (rsum_all_zero F O RT k (fun j => rsum k _))
          by (intros; apply (rsum_all_zero F O RT); intros; ring); ring.
      - reflexivity.
    Qed.

    Lemma expect_product al be (r r' : nat -> F) :
      rsum N (fun q => p q * ((al + rsum k (fun l => r l * e q l)) * (be + rsum k (fun l => r' l * e q l)))) =
      al * be + rsum k (fun l => rsum k (fun m => V l m * (r l * r' m))).
    Proof.
      rewrite (rsum_ext F O N _ (fun q => (p q * (al * be) + al * (p q * rsum k (fun l => r' l * e q l)) + be * (p q * rsum k (fun l => r l * e q l))) +
        rsum k (fun l => rsum k (fun m => (r l * r' m) * (p q * (e q l * e q m)))))).
      2:{ intros q _; transitivity ((p q * (al * be) + al * (p q * rsum k (fun l => r' l * e q l)) + be * (p q * rsum k (fun l => r l * e q l))) + p q * (rsum k (fun l => r l * e q l) * rsum k (fun l => r' l * e q l))); [ring|].
          f_equal; rewrite <- (rsum_mul_r F O RT), <- (rsum_mul_l F O RT); apply rsum_ext; intros l _.
          rewrite <- !(rsum_mul_l F O RT); apply rsum_ext; intros; ring. }
      rewrite !(rsum_add F O RT), expect_const, !(rsum_mul_l F O RT), !expect_linear.
      transitivity (al * be + rsum N (fun q => rsum k (fun l => rsum k (fun m => r l * r' m * (p q * (e q l * e q m)))))); [ring|f_equal].
      rewrite (rsum_swap F O RT); apply rsum_ext; intros l Hl; rewrite (rsum_swap F O RT); apply rsum_ext; intros m Hm'.
      rewrite (rsum_mul_l F O RT), HV by assumption; ring.
    Qed.
    Lemma line_decides i b v a : lt i n -> decides F O g b v a -> a (var_at g i) = line i b v.
    Proof. intros Hi Hd; apply Hd, Hi. Qed.
    Lemma line_two i b b1 b2 : (forall v, lt v n -> two * b v = b1 v + b2 v) -> two * line i b zero = line i b1 zero + line i b2 zero.
    Proof.
      intros Hb; unfold line; rewrite !(rsum_all_zero F O RT k) by (intros; ring).
      transitivity (two * rsum s (fun j => ry g i j * b (state_at g j))); [ring|].
      rewrite <- (rsum_mul_l F O RT).
      transitivity (rsum s (fun j => ry g i j * b1 (state_at g j)) + rsum s (fun j => ry g i j * b2 (state_at g j))); [|ring].
      rewrite <- (rsum_add F O RT); apply rsum_ext; intros j Hj.
      transitivity (ry g i j * (two * b (state_at g j))); [ring|]; rewrite Hb by (apply state_lt, Hj); ring.
    Qed.
    Lemma bend_bends b v a : (forall i, lt i n -> a (var_at g i) = two * bend i b v) -> bends F O g XX XU UU b v b v a.
    Proof.
      intros Ha i Hi; rewrite (Ha i Hi); unfold bend; change (Sum F O) with rsum.
      match goal with |- two * (?X + ?Y + ?Z) = _ => transitivity (two * X + two * Y + two * Z); [ring|] end.
      rewrite <- !(rsum_mul_l F O RT); f_equal; [f_equal|]; apply rsum_ext; intros a1 H1; rewrite <- (rsum_mul_l F O RT); apply rsum_ext; intros b1 H2.
      - rewrite <- Exx by assumption; ring.
      - rewrite Exu by assumption; unfold twice_one; ring.
      - rewrite <- Euu by assumption; ring.
    Qed.
    Lemma bend_mean i b : lt i n -> rsum N (fun q => p q * (two * bend i b (e q))) = two * bend i b zero + rsum k (fun l => rsum k (fun m => UU i l m * V l m)).
    Proof.
      intros Hi; unfold bend.
      rewrite (rsum_ext F O N _ (fun q => p q * (two * rsum s (fun a => rsum s (fun c => Axx i a c * (b (state_at g a) * b (state_at g c)))))
         + two * (p q * rsum k (fun l => rsum s (fun a => Axu i a l * b (state_at g a)) * e q l))
         + rsum k (fun l => rsum k (fun m => UU i l m * (p q * (e q l * e q m)))))).
      2:{ intros q _; rewrite (rsum_swap F O RT s k).
          match goal with |- p q * (two * (?X + ?Y + ?Z)) = _ => transitivity (p q * (two * X) + two * (p q * Y) + p q * (two * Z)); [ring|] end.
          f_equal; [f_equal; do 2 f_equal; apply rsum_ext; intros l _; rewrite <- (rsum_mul_r F O RT); apply rsum_ext; intros; ring|].
          rewrite <- !(rsum_mul_l F O RT); apply rsum_ext; intros l Hl; rewrite <- !(rsum_mul_l F O RT); apply rsum_ext; intros m Hm'.
          rewrite <- Euu by assumption; ring. }
      rewrite !(rsum_add F O RT), expect_const, (rsum_mul_l F O RT N two), expect_linear.
      rewrite (rsum_all_zero F O RT s (fun a => rsum k _)), (rsum_all_zero F O RT k (fun a => rsum k (fun m => Auu i a m * _))) by (intros; apply (rsum_all_zero F O RT); intros; ring).
      match goal with |- ?A + two * z + ?B = two * ?A' + ?B' => replace B with B'; [ring|] end.
      symmetry; rewrite (rsum_swap F O RT); apply rsum_ext; intros l Hl; rewrite (rsum_swap F O RT); apply rsum_ext; intros m Hm'.
      rewrite (rsum_mul_l F O RT), HV by assumption; reflexivity.
    Qed.

    Lemma second_jets : exists nb nc fb fc,
      (forall v, lt v n -> jet2 (fun t => now t v) z (nb v) (nc v)) /\
      (forall q v, lt q N -> lt v n -> jet2 (fun t => next q t v) z (fb q v) (fc q v)) /\
      forall i, lt i (List.length L) ->
        rsum N (fun q => p q * rsum w (fun c => J i c * arg x nb (fb q) u c)) = z /\
        rsum N (fun q => p q * (rsum w (fun c => J i c * arg zero nc (fc q) zero c) +
          rdiv O (rsum w (fun c => rsum w (fun d => H i c d * (arg x nb (fb q) u c * arg x nb (fb q) u d)))) two)) = z.
    Proof.
      destruct (spread (fun i => line i x u)) as (nb & Hnb).
      destruct (spread (fun i => bend i x u + D i)) as (nc & Hnc).
      assert (Jn : forall v, lt v n -> jet2 (fun t => now t v) z (nb v) (nc v)).
      { intros v Hv; destruct (every_var v Hv) as (i & Hi & <-).
        eapply jet2_ext; [exact FT|exact OR|apply (near_all F O inv FT le OR); intros t; symmetry; apply Hnow, Hi|].
        eapply jet2_eq; [apply (move_jet x zero i (fun t v => t * x v) u Hi); intros; apply jet2_line|reflexivity|symmetry; apply Hnb, Hi|].
        rewrite (Hnc i Hi); unfold line; rewrite !(rsum_all_zero F O RT) by (intros; ring); ring. }
      destruct (spread (fun i => line i nb zero)) as (fm & Hfm).
      destruct replies as (rep & Hrep).
      destruct (choose (fun q r => forall i, lt i n -> r (var_at g i) = line i nc zero + bend i nb (e q) + D i)
        (fun q => spread (fun i => line i nc zero + bend i nb (e q) + D i)) N) as (fc & Hfc).
      exists nb, nc, (outcome rep fm), fc; split; [exact Jn|]; split.
      { intros q v Hq Hv; destruct (every_var v Hv) as (i & Hi & <-).
        eapply jet2_ext; [exact FT|exact OR|apply (near_all F O inv FT le OR); intros t; symmetry; apply Hnext; assumption|].
        eapply jet2_eq; [apply (move_jet nb nc i now (e q) Hi Jn)|reflexivity| |symmetry; apply Hfc; assumption].
        unfold outcome; rewrite (Hfm i Hi); unfold line; rewrite (rsum_all_zero F O RT k (fun l => ru g i l * z)) by (intros; ring).
        rewrite (rsum_ext F O k (fun l => rep l (var_at g i) * e q l) (fun l => ru g i l * e q l)) by (intros l Hl; rewrite Hrep by assumption; reflexivity); ring. }
      assert (Dn : decides F O g x u nb) by (intros i Hi; apply Hnb, Hi).
      assert (Df : decides F O g nb zero fm) by (intros i Hi; apply Hfm, Hi).
      intros i Hi; split; [apply expect_first; assumption|].
      destruct (spread (fun i => two * bend i x u)) as (B & HB).
      destruct (spread (fun i => line i B zero)) as (Bc & HBc).
      destruct (spread (fun i => two * bend i nb zero)) as (Bb & HBb).
      destruct (spread C) as (Cv & HCv).
      destruct (spread (fun i => line i Cv zero)) as (Cc & HCc).
      destruct (spread (fun i => Cc (var_at g i) + C i + rsum k (fun l => rsum k (fun m => UU i l m * V l m)))) as (Cn & HCn).
      pose proof (S2 x u nb fm Dn Df x u nb fm Dn Df B Bc Bb (fun v => Bc v + Bb v)
        (bend_bends x u B HB) (fun i Hi => HBc i Hi) (bend_bends nb zero Bb HBb) (fun v _ => eq_refl) i Hi) as G2; cbn zeta in G2.
      pose proof (SC Cv Cc Cn HCv (fun i Hi => HCc i Hi) HCn rep) as GC; cbn zeta in GC; specialize (fun R => GC R i Hi).
      change (Sum F O) with rsum in G2, GC.
      assert (GC' := GC); clear GC; assert (Rr : forall l, lt l k -> decides F O g zero (fun m => if m =? l then r1 O else r0 O) (rep l)).
      { intros l Hl j Hj; rewrite Hrep by assumption; change (Sum F O) with rsum; rewrite (rsum_all_zero F O RT s) by (intros; ring).
        rewrite (rsum_single F O RT k l) by (first [exact Hl|intros m Hm' Nm; destruct (Nat.eqb_spec m l); [contradiction|ring]]); rewrite Nat.eqb_refl; ring. }
      specialize (GC' Rr).
      assert (E2 : forall v, lt v n -> two * nc v = B v + Cv v).
      { intros v Hv; destruct (every_var v Hv) as (j & Hj & <-); rewrite (Hnc j Hj), (HB j Hj), (HCv j Hj), <- (Edl j Hj); ring. }
      assert (EF : forall v, lt v n -> two * rsum N (fun q => p q * fc q v) = (Bc v + Bb v) + Cn v).
      { intros v Hv; destruct (every_var v Hv) as (j & Hj & <-); rewrite (HBc j Hj), (HBb j Hj), (HCn j Hj), (HCc j Hj), <- (Edl j Hj).
        rewrite <- (rsum_mul_l F O RT), (rsum_ext F O N _ (fun q => p q * (two * line j nc zero + two * D j) + p q * (two * bend j nb (e q)))) by (intros q Hq; rewrite Hfc by assumption; ring).
        rewrite (rsum_add F O RT), expect_const, (bend_mean j nb Hj), (line_two j nc B Cv E2); ring. }
      assert (T0 : forall y, two * y = z -> y = z).
      { intros y Hy; transitivity (rmul O (rdiv O (r1 O) two) (two * y)); [field; exact Two|rewrite Hy; ring]. }
      apply T0.
      transitivity ((rsum w (fun c => J i c * arg zero B (fun v => Bc v + Bb v) zero c) +
         rsum w (fun c => rsum w (fun d => H i c d * (arg x nb fm u c * arg x nb fm u d)))) +
        (rsum w (fun c => J i c * arg zero Cv Cn zero c) +
         rsum k (fun l => rsum k (fun m => V l m * rsum w (fun c => rsum w (fun d => H i c d * (arg zero zero (rep l) zero c * arg zero zero (rep m) zero d))))))).
      2:{ rewrite G2, GC'; ring. }
      rewrite <- (rsum_mul_l F O RT), (rsum_ext F O N _ (fun q => two * (p q * rsum w (fun c => J i c * arg zero nc (fc q) zero c)) +
        p q * rsum w (fun c => rsum w (fun d => H i c d * (arg x nb (outcome rep fm q) u c * arg x nb (outcome rep fm q) u d))))) by (intros q Hq; field; exact Two).
      rewrite (rsum_add F O RT), (rsum_mul_l F O RT), (expect_arg (J i)).
      match goal with |- ?A + ?B' = (?A1 + ?B1) + (?A2 + ?B2) => transitivity ((A1 + A2) + (B1 + B2)); [|ring]; f_equal end.
      - rewrite <- (rsum_mul_l F O RT), <- (rsum_add F O RT); apply rsum_ext; intros c Hc.
        transitivity (J i c * (two * arg zero nc (fun v => rsum N (fun q => p q * fc q v)) zero c)); [ring|].
        transitivity (J i c * (arg zero B (fun v => Bc v + Bb v) zero c + arg zero Cv Cn zero c)); [f_equal|ring].
        rewrite arg_mul, arg_add; apply arg_ext; [exact Hc| | | |]; intros v Hv; [ring|apply E2, Hv|apply EF, Hv|ring].
      - assert (Eo : forall q c, lt c w -> arg x nb (outcome rep fm q) u c = arg x nb fm u c + rsum k (fun l => arg zero zero (rep l) zero c * e q l)).
        { intros q c Hc; rewrite (rsum_ext F O k _ (fun l => arg zero zero (fun v => e q l * rep l v) zero c)).
          2:{ intros l _; transitivity (e q l * arg zero zero (rep l) zero c); [ring|]; rewrite arg_mul; apply arg_ext; [exact Hc| | | |]; intros; try ring; reflexivity. }
          rewrite (arg_sum k (fun _ => zero) (fun _ => zero) (fun l v => e q l * rep l v) (fun _ => zero)), arg_add.
          apply arg_ext; [exact Hc| | | |]; intros v Hv; rewrite ?(rsum_zero F O RT); try ring.
          unfold outcome; f_equal; apply rsum_ext; intros; ring. }
        rewrite (rsum_ext F O N _ (fun q => rsum w (fun c => rsum w (fun d => H i c d * (p q *
          ((arg x nb fm u c + rsum k (fun l => arg zero zero (rep l) zero c * e q l)) * (arg x nb fm u d + rsum k (fun l => arg zero zero (rep l) zero d * e q l)))))))).
        2:{ intros q _; rewrite <- (rsum_mul_l F O RT); apply rsum_ext; intros c Hc; rewrite <- (rsum_mul_l F O RT); apply rsum_ext; intros d Hd.
            rewrite !Eo by assumption; ring. }
        rewrite (rsum_swap F O RT).
        rewrite (rsum_ext F O w _ (fun c => rsum w (fun d => H i c d * (arg x nb fm u c * arg x nb fm u d)) +
          rsum w (fun d => rsum k (fun l => rsum k (fun m => V l m * (H i c d * (arg zero zero (rep l) zero c * arg zero zero (rep m) zero d))))))).
        2:{ intros c Hc; rewrite (rsum_swap F O RT), <- (rsum_add F O RT); apply rsum_ext; intros d Hd; rewrite (rsum_mul_l F O RT).
            rewrite (expect_product (arg x nb fm u c) (arg x nb fm u d) (fun l => arg zero zero (rep l) zero c) (fun l => arg zero zero (rep l) zero d)).
            match goal with |- ?h * (?a + ?b) = _ => transitivity (h * a + h * b); [ring|f_equal] end.
            rewrite <- (rsum_mul_l F O RT); apply rsum_ext; intros l _; rewrite <- (rsum_mul_l F O RT); apply rsum_ext; intros; ring. }
        rewrite (rsum_add F O RT); f_equal.
        rewrite (rsum_ext F O w _ (fun c => rsum k (fun l => rsum w (fun d => rsum k (fun m => V l m * (H i c d * (arg zero zero (rep l) zero c * arg zero zero (rep m) zero d))))))) by (intros; apply (rsum_swap F O RT)).
        rewrite (rsum_swap F O RT); apply rsum_ext; intros l _.
        rewrite (rsum_ext F O w _ (fun c => rsum k (fun m => rsum w (fun d => V l m * (H i c d * (arg zero zero (rep l) zero c * arg zero zero (rep m) zero d)))))) by (intros; apply (rsum_swap F O RT)).
        rewrite (rsum_swap F O RT); apply rsum_ext; intros m _; rewrite <- (rsum_mul_l F O RT); apply rsum_ext; intros c _; rewrite <- (rsum_mul_l F O RT); reflexivity.
    Qed.
  End Second.
End Accuracy.
