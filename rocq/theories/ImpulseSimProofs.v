(** Proofs for C96: impulse responses and the equations. *)
From Verif Require Import Base Syntax Eval EvalSpec FactorySpec Factory Indexing IndexingSpec DynFunc DynSpec Vars ExprList
  ModelState Nd Mat NdProofs SimSpec Sim SimProofs SimProofs2 SimProofs3 PropSim
  CalcSpec CalcProofs FirstOrderSpec AccuracySpec PathSim PathSimProofs ImpulseSim ImpulseSimSpec.
From Coq Require Import Ring Field ZArith.
Local Open Scope nat_scope.
Local Open Scope list_scope.

Section Responses.
  Variable F : Type.
  Variable O : rops F.
  Variable finv : F -> F.
  Variable le : F -> F -> Prop.
  Variable P : ops F.
  Hypothesis FT : is_field O finv.
  Let FT' : field_theory (r0 O) (r1 O) (radd O) (rmul O) (rsub O) (ropp O) (rdiv O) finv eq := FT.
  Add Field Ffield96 : FT'.
  Let RT : is_ring O := F_R FT'.
  Local Notation "x + y" := (radd O x y).
  Local Notation "x * y" := (rmul O x y).
  Local Notation Sum := (SimSpec.Sum F O).

  Variable chol : nat -> (nat -> nat -> F) -> res (nat -> nat -> F).
  Variable endog stoch : list string.
  Variable params : list (string * F).
  Variable exprs : list (ast F).
  Variable ss : list F.
  Variable g : rule F.
  Variable M : smodel F.
  Variable R : nat -> nat -> F.
  Hypothesis W : proper g.
  Hypothesis D : SimProofs3.describes g M.
  Hypothesis Hss : m_ss M = ss.
  Hypothesis Hn : List.length endog = rn g.
  Hypothesis Hk : List.length stoch = rk g.
  Hypothesis Hw : 1 < rn g \/ rk g = 1.
  Hypothesis Hc : chol (rk g) (m_sigma M) = Ok R.
  Hypothesis Nd : NoDup stoch.
  Hypothesis Sol : forall (n : nat) (p : nat -> F) (e : nat -> nat -> F) (x u : nat -> F) (now : F -> nat -> F) (next : nat -> F -> nat -> F),
    centred F O (List.length stoch) n p e ->
    let lag t v := t * x v in
    let shock t l := t * u l in
    (forall t, decides F O g (lag t) (shock t) (now t)) ->
    (forall q t, q < n -> decides F O g (now t) (fun l => t * e q l) (next q t)) ->
    Forall (expected_small F O le P endog stoch params (small1 F O le) n p ss lag now next shock) exprs.

  Variable e : option key.
  Variable periods : nat.
  Hypothesis He : named_shocks stoch e.
  Hypothesis Hp : 0 < periods.

  (** The response, from the names that the model has. *)
  Definition response_from (h : F) : res (list (list F)) :=
    do sh <- impulse_shocks F O stoch e periods h;
    do p <- Sim.simulate F O chol M (Sim.First (gy_of g) (gu_of g)) (Some sh) 200 (fun _ _ => r0 O) None;
    Ok (less F O ss p).

  Lemma less_value p t v : table F periods (rn g) p -> List.length ss = rn g -> t < periods -> v < rn g ->
    value F O (less F O ss p) t v = value F O p t v + ropp O (nth v ss (r0 O)).
  Proof using All.
    intros [Tl Tw] Ls Ht Hv; unfold less, SimSpec.value.
    set (h := fun r : list F => map (fun q => rsub O (fst q) (snd q)) (combine r ss)).
    rewrite (nth_indep _ [] (h [])) by (rewrite map_length, Tl; exact Ht); rewrite (map_nth h); unfold h.
    assert (Lr : List.length (nth t p []) = rn g) by (apply Tw, nth_In; lia).
    rewrite (nth_indep _ (r0 O) (rsub O (fst (r0 O, r0 O)) (snd (r0 O, r0 O)))) by (rewrite map_length, combine_length; lia).
    rewrite (map_nth (fun q : F * F => rsub O (fst q) (snd q))), combine_nth by congruence; cbn [fst snd]; ring.
  Qed.
  Lemma less_table p : table F periods (rn g) p -> List.length ss = rn g -> table F periods (rn g) (less F O ss p).
  Proof using All.
    intros [Tl Tw] Ls; split; [unfold less; rewrite map_length; exact Tl|]; intros r Hr; apply in_map_iff in Hr; destruct Hr as (r' & <- & Hr').
    rewrite map_length, combine_length, (Tw _ Hr'); lia.
  Qed.

  Lemma rule_responses : responses_solve F O le P endog stoch params exprs ss R e periods response_from.
  Proof using FT W D Hss Hn Hk Hw Hc Nd Sol He Hp.
    pose proof D as (Ls & Lk & _); rewrite Hss in Ls.
    assert (K0 : 0 < rk g) by (destruct W as (_ & _ & _ & _ & _ & _ & H); exact H).
    destruct (impulse_index stoch e Nd ltac:(lia) He) as (idx & Ei & Eb & Ex).
    set (u := fun (h : F) (t j : nat) => if (t =? 0) && existsb (Nat.eqb j) idx then h else r0 O).
    assert (Es : forall h, impulse_shocks F O stoch e periods h = Ok (M2 periods (rk g) (u h))).
    { intros h; unfold impulse_shocks; rewrite Ei; cbn [bind]; rewrite Eb, orb_false_r; destruct (Nat.eqb_spec periods 0); [lia|]; rewrite Hk; reflexivity. }
    set (run := fun h => Sim.simulate F O chol M (Sim.First (gy_of g) (gu_of g)) (Some (M2 periods (rk g) (u h))) 200 (fun _ _ => r0 O) None).
    set (path := fun h => match run h with Ok p => p | Err _ => [] end).
    assert (G : forall h, run h = Ok (path h) /\ table F periods (rn g) (path h) /\ starts F g (fun _ => r0 O) (SimProofs3.dev F O M (path h)) /\
      obeys F O g periods (SimProofs3.mixed F O (rk g) R (u h)) (SimProofs3.dev F O M (path h))).
    { intros h; destruct (simulate_first_model F O chol RT g M R periods (u h) 200 (fun _ _ => r0 O) None (fun _ => r0 O) W D Hw Hc Hp) as (p & E & Tb & St & Ob).
      - left; split; [reflexivity|]; intros; reflexivity.
      - fold (run h) in E; unfold path; rewrite E; auto. }
    set (dv := fun h t v => SimProofs3.dev F O M (path h) t v).
    assert (Mix : forall h t l, SimProofs3.mixed F O (rk g) R (u h) t l = h * SimProofs3.mixed F O (rk g) R (u (r1 O)) t l).
    { intros h t l; unfold SimProofs3.mixed; change (SimSpec.Sum F O) with (rsum F O); rewrite <- rsum_mul_l by exact RT; apply rsum_ext; intros j _; unfold u.
      destruct (_ && _); ring. }
    assert (Lin : forall h t v, t < periods -> v < rn g -> dv h t v = h * dv (r1 O) t v).
    { intros h t v Ht Hv; destruct (G h) as (_ & _ & St & Ob), (G (r1 O)) as (_ & _ & St1 & Ob1).
      replace (h * dv (r1 O) t v) with (h * dv (r1 O) t v + r0 O * dv (r1 O) t v) by ring.
      apply (obeys_until F O RT g W periods _ _ _ (fun t v => h * dv (r1 O) t v + r0 O * dv (r1 O) t v) t Ob (obeys_comb F O RT g periods _ _ _ _ h (r0 O) Ob1 Ob1)); [|exact Ht| |exact Hv].
      - intros z Hz; unfold dv; rewrite (St z Hz), (St1 z Hz); ring.
      - intros s l _ _; rewrite Mix; ring. }
    assert (Val : forall h t v, t < periods -> v < rn g -> value F O (less F O ss (path h)) t v = dv h t v).
    { intros h t v Ht Hv; rewrite less_value by (assumption || apply G); unfold dv, SimProofs3.dev; rewrite Hss; ring. }
    assert (Nul : forall h t l, 0 < t -> SimProofs3.mixed F O (rk g) R (u h) t l = r0 O).
    { intros h t l Ht; unfold SimProofs3.mixed; change (SimSpec.Sum F O) with (rsum F O); apply rsum_all_zero; [exact RT|]; intros j _; unfold u.
      destruct (Nat.eqb_spec t 0); [lia|]; cbn [andb]; ring. }
    unfold responses_solve; cbn zeta; rewrite Hn, Hk; exists (fun h => less F O ss (path h)).
    split; [intros h; unfold response_from; rewrite Es; cbn [bind]; fold (run h); rewrite (proj1 (G h)); reflexivity|].
    split; [intros h; apply less_table; [apply G|exact Ls]|].
    split; [intros h v Hv; rewrite Val by assumption; apply (G h); exact Hv|].
    split; [intros h t v Ht Hv; rewrite !Val by assumption; apply Lin; assumption|].
    intros r Hr.
    assert (Cn : centred F O (List.length stoch) 1 (fun _ => r1 O) (fun _ _ => r0 O)) by (split; [cbn; ring|intros l _; cbn; ring]).
    assert (Now : forall h, decides F O g (fun v => h * dv (r1 O) r v) (fun l => h * SimProofs3.mixed F O (rk g) R (u (r1 O)) r l) (dv h (S r))).
    { intros h i Hi; destruct (G h) as (_ & _ & _ & Ob); unfold dv at 1; rewrite (Ob r i) by (exact Hi || lia).
      change (SimSpec.Sum F O) with (rsum F O); f_equal; apply rsum_ext; intros j Hj; f_equal; [apply Lin; [lia|apply (state_lt F g W); exact Hj]|apply Mix]. }
    assert (Nxt : forall q h, q < 1 -> decides F O g (dv h (S r)) (fun l => h * r0 O) ((fun _ h => dv h (S (S r))) q h)).
    { intros q h _ i Hi; destruct (G h) as (_ & _ & _ & Ob); unfold dv at 1; rewrite (Ob (S r) i) by (exact Hi || lia).
      change (SimSpec.Sum F O) with (rsum F O); f_equal; apply rsum_ext; intros j Hj; f_equal; rewrite Nul by lia; ring. }
    pose proof (Sol 1 (fun _ => r1 O) (fun _ _ => r0 O) _ _ (fun h => dv h (S r)) (fun _ h => dv h (S (S r))) Cn Now Nxt) as A; revert A; apply Forall_impl; intros eq (gap & E & s & Vs & Sm).
    exists (gap 0); split.
    - specialize (E 0 ltac:(lia)); revert E; apply near_mono; intros h.
      apply equation_value_ext; unfold level; intros i Hi; rewrite ?Hn, ?Hk in Hi; [f_equal; rewrite Val by (assumption || lia); symmetry; apply Lin; [lia|exact Hi]|f_equal; rewrite Val by (assumption || lia); reflexivity..|].
      destruct (Nat.eqb_spec r 0) as [->|N]; [|rewrite Nul by lia; ring].
      unfold SimProofs3.mixed; change (SimSpec.Sum F O) with (rsum F O); f_equal; apply rsum_ext; intros j Hj; unfold u; cbn [Nat.eqb andb].
      rewrite (Ex j ltac:(lia)); change (chosen stoch e j) with (moved stoch e j); destruct (moved stoch e j); ring.
    - exists s; split; [exact Vs|]; revert Sm; apply near_mono; intros h Hh; rewrite <- Hh; cbn; ring.
  Qed.
End Responses.
