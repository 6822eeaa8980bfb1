(** Impulse responses of solved models die out when the paths of the rule do. *)
From Verif Require Import Base Syntax Eval EvalSpec FactorySpec Factory Indexing IndexingSpec DynFunc DynSpec Vars ExprList
  ModelState Nd Mat NdProofs OrderProofs SimSpec Sim SimProofs SimProofs2 SimProofs3 PropSim
  CalcSpec CalcProofs FirstOrderSpec AccuracySpec PathSim PathSimProofs ImpulseSim ImpulseSimSpec ImpulseSimProofs StableSpec PropStable.
From Coq Require Import Ring Field ZArith.
Local Open Scope nat_scope.
Local Open Scope list_scope.

Section Fade.
  Variable F : Type.
  Variable O : rops F.
  Variable le : F -> F -> Prop.
  Hypothesis RT : is_ring O.
  Let RT' : ring_theory (r0 O) (r1 O) (radd O) (rmul O) (rsub O) (ropp O) eq := RT.
  Add Ring Ffade : RT'.
  Variable chol : nat -> (nat -> nat -> F) -> res (nat -> nat -> F).
  Variable stoch : list string.
  Variable ss : list F.
  Variable g : rule F.
  Variable M : smodel F.
  Variable R : nat -> nat -> F.
  Hypothesis W : proper g.
  Hypothesis D : SimProofs3.describes g M.
  Hypothesis Hss : m_ss M = ss.
  Hypothesis Hk : List.length stoch = rk g.
  Hypothesis Hw : 1 < rn g \/ rk g = 1.
  Hypothesis Hc : chol (rk g) (m_sigma M) = Ok R.
  Hypothesis Nd : NoDup stoch.
  Variable e : option key.
  Hypothesis He : named_shocks stoch e.

  Lemma responses_fade h close :
    (forall y, (forall t, decides F O g (y t) (fun _ => r0 O) (y (S t))) -> vanishes F O le (rn g) y) -> ~ le close (r0 O) ->
    exists T0, forall periods p, response_from F O chol stoch ss g M e periods h = Ok p ->
      forall t v, T0 <= t < periods -> v < rn g -> le (ropp O close) (value F O p t v) /\ le (value F O p t v) close.
  Proof using RT W D Hss Hk Hw Hc Nd He.
    intros Van Hcl; pose proof D as (Ls & Lk & _); rewrite Hss in Ls.
    assert (K0 : 0 < rk g) by (destruct W as (_ & _ & _ & _ & _ & _ & H); exact H).
    destruct (impulse_index stoch e Nd ltac:(lia) He) as (idx & Ei & Eb & Ex).
    set (u := fun (t j : nat) => if (t =? 0) && existsb (Nat.eqb j) idx then h else r0 O).
    set (w := SimProofs3.mixed F O (rk g) R u).
    set (x := fix x t := match t with 0 => fun _ : nat => r0 O | S t' => next F O g (x t') (w t') end).
    assert (Nul : forall t l, w (S t) l = r0 O).
    { intros t l; unfold w, SimProofs3.mixed; change (SimSpec.Sum F O) with (rsum F O); apply rsum_all_zero; [exact RT|]; intros j _; unfold u; cbn [Nat.eqb andb]; ring. }
    assert (Dx : forall t, decides F O g (x t) (w t) (x (S t))) by (intros t; apply (next_decides F O g W)).
    destruct (Van (fun t => x (S t))) with (e := close) as [T0 HT]; [|exact Hcl|].
    { intros t i Hi; rewrite (Dx (S t) i Hi); f_equal; change (SimSpec.Sum F O) with (rsum F O); apply rsum_ext; intros l _; rewrite Nul; reflexivity. }
    exists (S T0); intros periods p E t v [Ht1 Ht2] Hv.
    assert (Es : impulse_shocks F O stoch e periods h = Ok (M2 periods (rk g) u)).
    { unfold impulse_shocks; rewrite Ei; cbn [bind]; rewrite Eb, orb_false_r; destruct (Nat.eqb_spec periods 0); [lia|]; rewrite Hk; reflexivity. }
    destruct (simulate_first_model F O chol RT g M R periods u 200 (fun _ _ => r0 O) None (fun _ => r0 O) W D Hw Hc ltac:(lia)) as (p' & E' & [Tl Tw] & St & Ob);
      [left; split; [reflexivity|]; intros; reflexivity|].
    unfold response_from in E; rewrite Es in E; cbn [bind] in E; rewrite E' in E; cbn [bind] in E; injection E as <-.
    assert (V : value F O (less F O ss p') t v = x t v).
    { transitivity (SimProofs3.dev F O M p' t v).
      - clear - RT Hss Ls Tl Tw Ht2 Hv; unfold row in *; unfold SimProofs3.dev; rewrite Hss; unfold less, SimSpec.value.
        set (k := fun r : list F => map (fun q => rsub O (fst q) (snd q)) (combine r ss)).
        rewrite (nth_indep _ [] (k [])) by (rewrite map_length, Tl; exact Ht2); rewrite (map_nth k); unfold k.
        assert (Lr : List.length (nth t p' []) = rn g) by (apply Tw; apply nth_In; unfold row in *; rewrite Tl; exact Ht2).
        rewrite (nth_indep _ (r0 O) (rsub O (fst (r0 O, r0 O)) (snd (r0 O, r0 O)))) by (rewrite map_length, combine_length, Lr, Ls, Nat.min_id; exact Hv).
        rewrite (map_nth (fun q : F * F => rsub O (fst q) (snd q))), combine_nth by congruence; reflexivity.
      - apply (obeys_until F O RT g W periods w w _ x t Ob); [| |exact Ht2|intros; reflexivity|exact Hv].
        + intros s i _ Hi; exact (Dx s i Hi).
        + intros z Hz; exact (St z Hz). }
    rewrite V; destruct t as [|t]; [exfalso; clear - Ht1; lia|]; apply HT; [clear - Ht1; lia|exact Hv].
  Qed.
End Fade.
