From Verif Require Import Base Syntax Lexer Parser ParserSpec.

Section Proofs.
  Variable N : Type.
  Variable trunc : N -> option Z.
  Variable m : bool.
  Notation toks := (list (tok N)).
  Notation p_atom := (p_atom N trunc m).
  Notation p_call := (p_call N trunc m).
  Notation p_exponent := (p_exponent N trunc m).
  Notation p_powers := (p_powers N trunc m).
  Notation p_term := (p_term N trunc m).
  Notation p_factors := (p_factors N trunc m).
  Notation p_expr := (p_expr N trunc m).
  Notation p_summands := (p_summands N trunc m).
  Notation adv := (adv N).
  Notation reads := (reads N trunc m true).
  Notation ends := (ends N m).
  Notation continues := (continues N m).

  (** ** Unfolding equations *)
  Lemma p_atom_S f ts : p_atom (S f) ts =
    match ts with
    | TId s :: _ =>
        if m then maybe_period_variable N trunc ts
        else do ts1 <- adv ts; Ok (Var s, ts1)
    | TNum n :: _ => do ts1 <- adv ts; Ok (Num n, ts1)
    | TSym LPare :: _ =>
        do ts1 <- adv ts;
        do (e, ts2) <- p_expr f ts1;
        do ts3 <- eat_sym N RPare ts2;
        Ok (e, ts3)
    | _ =>
        match sign_of N ts with
        | Some o =>
            do ts1 <- adv ts;
            do (e, ts2) <- p_term f ts1;
            Ok (Un o e, ts2)
        | None => Err PynareSyntaxErr
        end
    end.
  Proof. reflexivity. Qed.
  Lemma p_call_S f node ts : p_call (S f) node ts =
    match ts with
    | TFun g :: _ =>
        do ts1 <- adv ts;
        do ts2 <- eat_sym N LPare ts1;
        do (e, ts3) <- p_expr f ts2;
        do ts4 <- eat_sym N RPare ts3;
        p_call f (Some (Fun g e)) ts4
    | _ =>
        match node with
        | Some n => Ok (n, ts)
        | None => p_atom f ts
        end
    end.
  Proof. reflexivity. Qed.
  Lemma p_exponent_S f ts : p_exponent (S f) ts =
    do (n, ts1) <- p_call f None ts; p_powers f n ts1.
  Proof. reflexivity. Qed.
  Lemma p_powers_S f node ts : p_powers (S f) node ts =
    if is_sym N Power ts then
      do ts1 <- adv ts;
      do (r, ts2) <- p_exponent f ts1;
      if m then p_powers f (Bin BPow node r) ts2
      else Ok (Bin BPow node r, ts2)
    else Ok (node, ts).
  Proof. reflexivity. Qed.
  Lemma p_term_S f ts : p_term (S f) ts =
    do (n, ts1) <- p_exponent f ts; p_factors f n ts1.
  Proof. reflexivity. Qed.
  Lemma p_factors_S f node ts : p_factors (S f) node ts =
    match mul_of N ts with
    | Some o =>
        do ts1 <- adv ts;
        do (r, ts2) <- p_exponent f ts1;
        p_factors f (Bin o node r) ts2
    | None => Ok (node, ts)
    end.
  Proof. reflexivity. Qed.
  Lemma p_expr_S f ts : p_expr (S f) ts =
    do (n, ts1) <- p_term f ts; p_summands f n ts1.
  Proof. reflexivity. Qed.
  Lemma p_summands_S f node ts : p_summands (S f) node ts =
    match add_of N ts with
    | Some o =>
        do ts1 <- adv ts;
        do (r, ts2) <- p_term f ts1;
        p_summands f (Bin o node r) ts2
    | None => Ok (node, ts)
    end.
  Proof. reflexivity. Qed.

  (** ** Fuel *)
  Definition le {A} (r r' : res A) : Prop := r = Err OutOfFuel \/ r = r'.
  Lemma le_refl {A} (r : res A) : le r r. Proof. right; reflexivity. Qed.
  Lemma le_bind {A B} (r r' : res A) (k k' : A -> res B) :
    le r r' -> (forall a, le (k a) (k' a)) -> le (bind r k) (bind r' k').
  Proof.
    intros [->| ->] H; [left; reflexivity|].
    destruct r' as [a|e]; cbn [bind]; [apply H | right; reflexivity].
  Qed.

  Lemma mono f :
    (forall ts, le (p_atom f ts) (p_atom (S f) ts)) /\
    (forall nd ts, le (p_call f nd ts) (p_call (S f) nd ts)) /\
    (forall ts, le (p_exponent f ts) (p_exponent (S f) ts)) /\
    (forall nd ts, le (p_powers f nd ts) (p_powers (S f) nd ts)) /\
    (forall ts, le (p_term f ts) (p_term (S f) ts)) /\
    (forall nd ts, le (p_factors f nd ts) (p_factors (S f) nd ts)) /\
    (forall ts, le (p_expr f ts) (p_expr (S f) ts)) /\
    (forall nd ts, le (p_summands f nd ts) (p_summands (S f) nd ts)).
  Proof.
    induction f as [|f (IHa & IHc & IHe & IHp & IHt & IHf & IHx & IHs)].
    - repeat split; intros; left; reflexivity.
    - repeat split; intros.
      + rewrite (p_atom_S (S f)), (p_atom_S f).
        destruct ts as [|[| | | | | |y] ts]; try apply le_refl;
          destruct y; try apply le_refl; cbn [sign_of];
          apply le_bind; try apply le_refl; intros ts1; apply le_bind; auto; intros [e ts2]; apply le_refl.
      + rewrite (p_call_S (S f)), (p_call_S f).
        destruct ts as [|[| | | | | |y] ts]; try (destruct nd; [apply le_refl|apply IHa]).
        apply le_bind; [apply le_refl|]; intros ts1.
        apply le_bind; [apply le_refl|]; intros ts2.
        apply le_bind; [apply IHx|]; intros [e ts3].
        apply le_bind; [apply le_refl|]; intros ts4; apply IHc.
      + rewrite (p_exponent_S (S f)), (p_exponent_S f).
        apply le_bind; [apply IHc|]; intros [n ts1]; apply IHp.
      + rewrite (p_powers_S (S f)), (p_powers_S f).
        destruct (is_sym N Power ts); [|apply le_refl].
        apply le_bind; [apply le_refl|]; intros ts1.
        apply le_bind; [apply IHe|]; intros [r ts2]; destruct m; [apply IHp|apply le_refl].
      + rewrite (p_term_S (S f)), (p_term_S f).
        apply le_bind; [apply IHe|]; intros [n ts1]; apply IHf.
      + rewrite (p_factors_S (S f)), (p_factors_S f).
        destruct (mul_of N ts); [|apply le_refl].
        apply le_bind; [apply le_refl|]; intros ts1.
        apply le_bind; [apply IHe|]; intros [r ts2]; apply IHf.
      + rewrite (p_expr_S (S f)), (p_expr_S f).
        apply le_bind; [apply IHt|]; intros [n ts1]; apply IHs.
      + rewrite (p_summands_S (S f)), (p_summands_S f).
        destruct (add_of N ts); [|apply le_refl].
        apply le_bind; [apply le_refl|]; intros ts1.
        apply le_bind; [apply IHt|]; intros [r ts2]; apply IHs.
  Qed.

  Lemma mono_le {A} (F : nat -> res A) f f' :
    (forall f, le (F f) (F (S f))) -> f <= f' -> le (F f) (F f').
  Proof.
    intros H L; induction L as [|f' L IH]; [apply le_refl|].
    destruct IH as [IH|IH]; [left; exact IH|].
    rewrite IH; apply H.
  Qed.

  Lemma stable {A} (F : nat -> res A) f f' r :
    (forall f, le (F f) (F (S f))) -> f <= f' -> F f = r -> r <> Err OutOfFuel -> F f' = r.
  Proof.
    intros H L E Hr; destruct (mono_le F f f' H L); congruence.
  Qed.

  (** [F ⇓ r]: with enough fuel [F] gives [r]. *)
  Definition eval {A} (F : nat -> res A) (r : res A) : Prop :=
    exists f0, forall f, f0 <= f -> F f = r.

  (** ** Completeness: what is written in the grammar is read *)
  Lemma adv_cons t (ts : toks) : ts <> [] -> adv (t :: ts) = Ok ts.
  Proof. destruct ts; [congruence|reflexivity]. Qed.

  Lemma app_ne {A} (l : list A) (r : list A) : r <> [] -> l ++ r <> [].
  Proof. destruct l; cbn [app]; [auto|discriminate]. Qed.

  Lemma ends_ne t o en rest : ends t o en rest -> rest <> [].
  Proof. destruct rest; [contradiction|discriminate]. Qed.

  Lemma eat_rp (ts : toks) : ts <> [] -> eat_sym N RPare (rp :: ts) = Ok ts.
  Proof. destruct ts; [congruence|reflexivity]. Qed.

  Definition ev_of (t : nonterm) (o : bool) (en : ending) (e : ast N) (ts : toks) : Prop :=
    match t with
    | NAtom => forall rest, ends NAtom o en rest -> eval (fun f => p_atom f (ts ++ rest)) (Ok (e, rest))
    | NCall => forall rest node, ends NCall o en rest ->
        (node = None \/ exists g ts', ts = TFun g :: ts') ->
        eval (fun f => p_call f node (ts ++ rest)) (Ok (e, rest))
    | NExponent => forall rest, ends NExponent o en rest ->
        eval (fun f => p_exponent f (ts ++ rest)) (Ok (e, rest))
    | NTerm => forall rest X, ends NExponent o en rest ->
        eval (fun f => p_factors f e rest) X -> eval (fun f => p_term f (ts ++ rest)) X
    | NExpr => forall rest X, ends NTerm o en rest ->
        eval (fun f => p_summands f e rest) X -> eval (fun f => p_expr f (ts ++ rest)) X
    end.

  Ltac fuel f0 := exists (S f0); intros [|f] Hf; [lia|].

  Lemma factors_stop o en e rest :
    ends NTerm o en rest -> eval (fun f => p_factors f e rest) (Ok (e, rest)).
  Proof.
    intros H; fuel 0; rewrite p_factors_S.
    destruct rest as [|k rest]; [contradiction|]; cbn [ends continues] in H.
    destruct k as [| | | | | |y]; try reflexivity; destruct y; try reflexivity;
      cbn [ParserSpec.ends ParserSpec.continues] in H; rewrite orb_true_r in H; discriminate.
  Qed.
  Lemma summands_stop o en e rest :
    ends NExpr o en rest -> eval (fun f => p_summands f e rest) (Ok (e, rest)).
  Proof.
    intros H; fuel 0; rewrite p_summands_S.
    destruct rest as [|k rest]; [contradiction|].
    destruct k as [| | | | | |y]; try reflexivity; destruct y; try reflexivity; discriminate H.
  Qed.

  Lemma ends_weaken t t' o en rest :
    (forall k, continues t' o en k = true -> continues t o en k = true) ->
    ends t o en rest -> ends t' o en rest.
  Proof.
    intros W; destruct rest as [|k rest]; cbn [ParserSpec.ends]; [auto|]; intros H.
    destruct (continues t' o en k) eqn:E; [|reflexivity]; apply W in E; congruence.
  Qed.
  Lemma ends_exp_call o en rest : ends NExponent o en rest -> ends NCall o en rest.
  Proof.
    apply ends_weaken; intros [| | | | | |y]; cbn [ParserSpec.continues]; auto.
    destruct y; auto; intros; rewrite ?orb_true_r; auto.
  Qed.
  Lemma ends_term_exp o en rest : ends NTerm o en rest -> ends NExponent o en rest.
  Proof.
    apply ends_weaken; intros [| | | | | |y]; cbn [ParserSpec.continues]; auto.
    destruct y; auto; intros; rewrite ?orb_true_r; auto.
  Qed.
  Lemma ends_expr_term o en rest : ends NExpr o en rest -> ends NTerm o en rest.
  Proof.
    apply ends_weaken; intros [| | | | | |y]; cbn [ParserSpec.continues]; auto.
    destruct y; auto.
  Qed.
  Lemma ends_open en rest : ends NAtom true en rest -> ends NTerm true en rest /\ ends NTerm false en rest.
  Proof.
    split; revert H; (destruct rest as [|k rest]; cbn [ParserSpec.ends]; [auto|]);
      destruct k as [| | | | | |y]; cbn [ParserSpec.continues]; auto; destruct y; auto.
  Qed.

  Lemma eval_eq {A} (F G : nat -> res A) r :
    (exists f0, forall f, f0 <= f -> F (S f) = G f) -> eval G r -> eval F r.
  Proof.
    intros (f0 & E) (f1 & H); exists (S (Nat.max f0 f1)); intros [|f] Hf; [lia|].
    rewrite E by lia; apply H; lia.
  Qed.
  Lemma eval_bind {A B} (F : nat -> res A) (K : nat -> A -> res B) a r :
    eval F (Ok a) -> eval (fun f => K f a) r -> eval (fun f => bind (F f) (K f)) r.
  Proof.
    intros (f0 & H0) (f1 & H1); exists (Nat.max f0 f1); intros f Hf.
    rewrite H0 by lia; cbn [bind]; apply H1; lia.
  Qed.
  Lemma eval_const {A} (r : res A) : eval (fun _ => r) r.
  Proof. exists 0; reflexivity. Qed.
  Lemma eval_step {A} (F G : nat -> res A) r :
    (forall f, F (S f) = G f) -> eval G r -> eval F r.
  Proof. intros E; apply eval_eq; exists 0; auto. Qed.

  Lemma p_atom_not_fun o en e ts : reads NAtom o en e ts -> match ts with TFun _ :: _ => False | _ => True end.
  Proof.
    intros H; inversion H; subst; cbn; auto.
    match goal with |- context [sign_tok _ ?u] => destruct u; exact I end.
  Qed.

  Lemma tl_not_rp_end (rest : toks) : rest <> [] -> ends NExpr false EOther (rp :: rest) .
  Proof. reflexivity. Qed.

  Lemma ends_rp t o en (rest : toks) : ends t o en (rp :: rest).
  Proof. reflexivity. Qed.

  Lemma reads_complete t o en e ts : reads t o en e ts -> ev_of t o en e ts.
  Proof.
    intros H; induction H as
      [x|x u n k Hm Hk|n|o en e ts H IH|u o en e ts H IH|o en e ts H IH|f o en e ts H IH
      |f o en e ts g e' ts' Hj H IH H' IH'|o en e ts H IH|en0 o en l r tl tr Hl IHl Hr IHr
      |o en e ts H IH|en0 o en l r tl tr Hl IHl Hr IHr|en0 o en l r tl tr Hl IHl Hr IHr
      |o en e ts H IH|o0 en0 o en l r tl tr Hl IHl Hr IHr|o0 en0 o en l r tl tr Hl IHl Hr IHr];
      cbn [ev_of] in *.
    - intros rest He; fuel 0; rewrite p_atom_S; cbn [app].
      pose proof (ends_ne _ _ _ _ He) as Hne.
      destruct m eqn:Em.
      + unfold maybe_period_variable, eat_id; rewrite adv_cons by exact Hne; cbn [bind].
        destruct rest as [|k rest]; [contradiction|].
        destruct k as [| | | | | |y]; try reflexivity; destruct y; try reflexivity; discriminate He.
      + rewrite adv_cons by exact Hne; reflexivity.
    - intros rest He; fuel 0; rewrite p_atom_S, Hm; cbn [app].
      pose proof (ends_ne _ _ _ _ He) as Hne.
      destruct rest as [|k0 rest]; [congruence|].
      unfold maybe_period_variable, period_offset, offset, eat_id, eat_num, eat_sym, lp, rp.
      destruct u; cbn [sign_tok]; cbn; rewrite Hk; reflexivity.
    - intros rest He; fuel 0; rewrite p_atom_S; cbn [app].
      rewrite adv_cons by exact (ends_ne _ _ _ _ He); reflexivity.
    - intros rest He; pose proof (ends_ne _ _ _ _ He) as Hne.
      eapply eval_step; [intros f; rewrite p_atom_S; cbn [app lp]; rewrite <- app_assoc;
        rewrite adv_cons by (apply app_ne; discriminate); cbn [bind]; reflexivity|].
      eapply eval_bind with (a := (e, rp :: rest)).
      + apply IH; [apply ends_rp|]. apply (summands_stop o en), ends_rp.
      + cbn [fst snd app]; rewrite eat_rp by exact Hne; apply eval_const.
    - intros rest He; pose proof (ends_ne _ _ _ _ He) as Hne.
      apply ends_open in He as [He1 He2].
      assert (He : ends NTerm o en rest) by (destruct o; assumption).
      eapply eval_step with (G := fun f => do (e0, ts2) <- p_term f (ts ++ rest); Ok (Un u e0, ts2)).
      + intros f; rewrite p_atom_S; cbn [app].
        destruct u; cbn [sign_tok sign_of]; rewrite adv_cons by (apply app_ne; exact Hne); reflexivity.
      + eapply eval_bind with (a := (e, rest)); [|apply eval_const].
        apply IH; [apply ends_term_exp; exact He | apply (factors_stop o en); exact He].
    - intros rest node He Hn.
      pose proof (p_atom_not_fun _ _ _ _ H) as Hnf.
      assert (node = None) as ->.
      { destruct Hn as [->|(g & ts' & ->)]; [reflexivity|contradiction]. }
      eapply eval_step with (G := fun f => p_atom f (ts ++ rest)).
      + intros f; rewrite p_call_S.
        inversion H; subst; cbn [app]; try reflexivity.
        match goal with |- context [sign_tok _ ?u] => destruct u; reflexivity end.
      + apply IH; exact He.
    - intros rest node He _; pose proof (ends_ne _ _ _ _ He) as Hne.
      eapply eval_step.
      + intros f'; rewrite p_call_S; cbn [app]; rewrite adv_cons by discriminate; cbn [bind].
        unfold eat_sym at 1; cbn [lp is_sym]; change (sym_eqb LPare LPare) with true; cbv iota.
        rewrite <- app_assoc, adv_cons by (apply app_ne; discriminate); cbn [bind]; reflexivity.
      + eapply eval_bind with (a := (e, rp :: rest)).
        * apply IH; [apply ends_rp | apply (summands_stop o en), ends_rp].
        * cbn [app]; rewrite eat_rp by exact Hne; cbn [bind].
          eapply eval_step with (G := fun _ => Ok (Fun f e, rest)); [|apply eval_const].
          intros f'; rewrite p_call_S; destruct rest as [|k rest]; [congruence|].
          destruct k; try reflexivity; discriminate He.
    - intros rest node He _; pose proof (ends_ne _ _ _ _ He) as Hne.
      eapply eval_step.
      + intros f'; rewrite p_call_S; cbn [app]; rewrite adv_cons by discriminate; cbn [bind].
        unfold eat_sym at 1; cbn [lp is_sym]; change (sym_eqb LPare LPare) with true; cbv iota.
        rewrite <- app_assoc, adv_cons by (apply app_ne; discriminate); cbn [bind]; reflexivity.
      + eapply eval_bind with (a := (e, rp :: TFun g :: ts' ++ rest)).
        * apply IH; [apply ends_rp | apply (summands_stop o en), ends_rp].
        * cbn [app]; rewrite eat_rp by discriminate; cbn [bind].
          apply IH'; eauto.
    - intros rest He; pose proof (ends_ne _ _ _ _ He) as Hne.
      eapply eval_step; [intros f; rewrite p_exponent_S; reflexivity|].
      eapply eval_bind with (a := (e, rest)).
      + apply IH; [apply ends_exp_call; exact He | left; reflexivity].
      + eapply eval_step with (G := fun _ => Ok (e, rest)); [|apply eval_const].
        intros f; rewrite p_powers_S; destruct rest as [|k rest]; [congruence|].
        destruct k as [| | | | | |y]; try reflexivity; destruct y; try reflexivity.
        cbn [ParserSpec.ends ParserSpec.continues] in He; rewrite orb_true_r in He; discriminate.
    - intros rest He; pose proof (ends_ne _ _ _ _ He) as Hne.
      eapply eval_step; [intros f; rewrite p_exponent_S; reflexivity|].
      rewrite <- app_assoc; cbn [app].
      eapply eval_bind with (a := (l, TSym Power :: tr ++ rest)).
      + apply IHl; [reflexivity | left; reflexivity].
      + cbv beta; eapply eval_step; [intros f; rewrite p_powers_S; cbn [is_sym];
          change (sym_eqb Power Power) with true; cbv iota;
          rewrite adv_cons by (apply app_ne; exact Hne); cbn [bind]; reflexivity|].
        eapply eval_bind with (a := (r, rest)); [apply IHr; exact He|].
        assert (Hloop : eval (fun f => p_powers f (Bin BPow l r) rest) (Ok (Bin BPow l r, rest))).
        { eapply eval_step with (G := fun _ => Ok (Bin BPow l r, rest)); [|apply eval_const].
          intros f; rewrite p_powers_S; destruct rest as [|k rest]; [congruence|].
          destruct k as [| | | | | |y]; try reflexivity; destruct y; try reflexivity.
          cbn [ParserSpec.ends ParserSpec.continues] in He; rewrite orb_true_r in He; discriminate. }
        cbv beta iota; revert Hloop; destruct m; [auto|intros _; apply eval_const].
    - intros rest X He HX.
      eapply eval_step; [intros f; rewrite p_term_S; reflexivity|].
      eapply eval_bind with (a := (e, rest)); [apply IH; exact He | exact HX].
    - intros rest X He HX; rewrite <- app_assoc; cbn [app].
      apply IHl; [reflexivity|].
      eapply eval_step; [intros f; rewrite p_factors_S; cbn [mul_of];
        rewrite adv_cons by (apply app_ne, (ends_ne _ _ _ _ He)); cbn [bind]; reflexivity|].
      eapply eval_bind with (a := (r, rest)); [apply IHr; exact He | exact HX].
    - intros rest X He HX; rewrite <- app_assoc; cbn [app].
      apply IHl; [reflexivity|].
      eapply eval_step; [intros f; rewrite p_factors_S; cbn [mul_of];
        rewrite adv_cons by (apply app_ne, (ends_ne _ _ _ _ He)); cbn [bind]; reflexivity|].
      eapply eval_bind with (a := (r, rest)); [apply IHr; exact He | exact HX].
    - intros rest X He HX.
      eapply eval_step; [intros f; rewrite p_expr_S; reflexivity|].
      eapply eval_bind with (a := (e, rest)); [|exact HX].
      apply IH; [apply ends_term_exp; exact He | apply (factors_stop o en); exact He].
    - intros rest X He HX; rewrite <- app_assoc; cbn [app].
      apply IHl; [reflexivity|].
      eapply eval_step; [intros f; rewrite p_summands_S; cbn [add_of];
        rewrite adv_cons by (apply app_ne, (ends_ne _ _ _ _ He)); cbn [bind]; reflexivity|].
      eapply eval_bind with (a := (r, rest)); [|exact HX].
      apply IHr; [apply ends_term_exp; exact He | apply (factors_stop o en); exact He].
    - intros rest X He HX; rewrite <- app_assoc; cbn [app].
      apply IHl; [reflexivity|].
      eapply eval_step; [intros f; rewrite p_summands_S; cbn [add_of];
        rewrite adv_cons by (apply app_ne, (ends_ne _ _ _ _ He)); cbn [bind]; reflexivity|].
      eapply eval_bind with (a := (r, rest)); [|exact HX].
      apply IHr; [apply ends_term_exp; exact He | apply (factors_stop o en); exact He].
  Qed.

  (** ** Soundness: what is read is written in the grammar *)
  Lemma adv_inv (ts ts' : toks) : adv ts = Ok ts' -> (exists t, ts = t :: ts') /\ ts' <> [].
  Proof.
    destruct ts as [|t [|t' ts]]; cbn; try discriminate; intros H; injection H as <-.
    split; [eauto|discriminate].
  Qed.
  Lemma is_sym_inv y (ts : toks) : is_sym N y ts = true -> exists ts', ts = TSym y :: ts'.
  Proof.
    destruct ts as [|[| | | | | |z] ts]; cbn; try discriminate.
    unfold sym_eqb; destruct (sym_eq_dec y z); [subst; eauto|discriminate].
  Qed.
  Lemma eat_sym_inv y (ts ts' : toks) : eat_sym N y ts = Ok ts' -> ts = TSym y :: ts' /\ ts' <> [].
  Proof.
    unfold eat_sym; destruct (is_sym N y ts) eqn:E; [|discriminate].
    apply is_sym_inv in E as (ts0 & ->); intros H; apply adv_inv in H as [(t & H) Hn].
    injection H as <- <-; auto.
  Qed.
  Lemma eat_num_inv (ts ts' : toks) n : eat_num N ts = Ok (n, ts') -> ts = TNum n :: ts' /\ ts' <> [].
  Proof.
    unfold eat_num; destruct ts as [|[| |n'| | | |y] ts]; try discriminate; intros H.
    apply bind_ok in H as (ts1 & H1 & H); apply adv_inv in H1 as [(t & H1) Hn].
    injection H as <- <-; injection H1 as <- <-; auto.
  Qed.

  Lemma eat_id_inv (ts ts' : toks) x : eat_id N ts = Ok (x, ts') -> ts = TId x :: ts' /\ ts' <> [].
  Proof.
    unfold eat_id; destruct ts as [|[|x'| | | | |y] ts]; try discriminate; intros H.
    apply bind_ok in H as (ts1 & H1 & H); apply adv_inv in H1 as [(t & H1) Hn].
    injection H as <- <-; injection H1 as <- <-; auto.
  Qed.

  Lemma sign_of_inv u (ts : toks) : sign_of N ts = Some u -> exists ts', ts = sign_tok N u :: ts'.
  Proof.
    destruct ts as [|[| | | | | |z] ts]; cbn; try discriminate; destruct z; try discriminate;
      intros H; injection H as <-; cbn; eauto.
  Qed.

  Lemma period_inv (ts rest : toks) e :
    m = true -> maybe_period_variable N trunc ts = Ok (e, rest) ->
    exists pre o en, ts = pre ++ rest /\ reads NAtom o en e pre /\ ends NAtom o en rest.
  Proof.
    intros Hm; unfold maybe_period_variable; intros H.
    apply bind_ok in H as ((x & ts1) & H1 & H); apply eat_id_inv in H1 as [-> Hn].
    destruct (is_sym N LPare ts1) eqn:El.
    - apply bind_ok in H as ((k & ts2) & H2 & H); injection H as <- <-.
      unfold period_offset in H2.
      apply bind_ok in H2 as (ts3 & H3 & H2); apply eat_sym_inv in H3 as [-> Hn3].
      destruct (sign_of N ts3) as [u|] eqn:Eu; [|discriminate].
      apply sign_of_inv in Eu as (ts4 & ->).
      apply bind_ok in H2 as (ts5 & H5 & H2); apply adv_inv in H5 as [(t & H5) Hn5]; injection H5 as <- ->.
      apply bind_ok in H2 as ((n & ts6) & H6 & H2); apply eat_num_inv in H6 as [-> Hn6].
      apply bind_ok in H2 as (ts7 & H7 & H2); apply eat_sym_inv in H7 as [-> Hn7].
      apply bind_ok in H2 as (k' & H8 & H2); injection H2 as -> ->.
      unfold offset in H8; destruct (trunc n) as [k0|] eqn:Ek; [|discriminate]; injection H8 as <-.
      exists [TId x; lp; sign_tok N u; TNum n; rp], false, EOther.
      split; [reflexivity|]; split.
      + apply (R_period N trunc m true x u n k0 Hm Ek).
      + destruct ts2 as [|[| | | | | |y] ts2]; [congruence|..]; cbn; auto; destruct y; auto.
    - injection H as <- <-.
      exists [TId x], false, EId; split; [reflexivity|]; split; [constructor|].
      destruct ts1 as [|[| | | | | |y] ts1]; [congruence|..]; cbn; auto; destruct y; auto; discriminate El.
  Qed.

  Lemma ends_closed (rest : toks) : rest <> [] -> ends NAtom false EOther rest.
  Proof.
    destruct rest as [|[| | | | | |y] rest]; [congruence|..]; cbn; auto; destruct y; auto.
  Qed.

  Lemma reads_call_fun o en e g ts :
    reads NCall o en e (TFun g :: ts) -> o = false /\ en = ECall.
  Proof.
    intros H; inversion H; subst; auto.
    exfalso; eapply (p_atom_not_fun o en e (TFun g :: ts)); eauto.
  Qed.

  Definition sound (t : nonterm) (ts : toks) (r : res (ast N * toks)) : Prop :=
    forall e rest, r = Ok (e, rest) ->
    exists pre o en, ts = pre ++ rest /\ reads t o en e pre /\ ends t o en rest.
  (** A loop that continues from a node of kind [t0], at a point where a
      node of kind [t1] has ended. *)
  Definition sound_loop (t0 t1 t : nonterm) (nd : ast N) (ts : toks) (r : res (ast N * toks)) : Prop :=
    forall e rest pre0 o0 en0, r = Ok (e, rest) -> reads t0 o0 en0 nd pre0 -> ends t1 o0 en0 ts ->
    exists pre o en, pre0 ++ ts = pre ++ rest /\ reads t o en e pre /\ ends t o en rest.

  Lemma soundness f :
    (forall ts, sound NAtom ts (p_atom f ts)) /\
    (forall nd ts e rest, p_call f nd ts = Ok (e, rest) ->
       (exists pre o en, ts = pre ++ rest /\ reads NCall o en e pre /\ ends NCall o en rest /\
          (nd = None \/ exists g pre', pre = TFun g :: pre')) \/
       (nd = Some e /\ ts = rest /\ match ts with TFun _ :: _ => False | _ => True end)) /\
    (forall ts, sound NExponent ts (p_exponent f ts)) /\
    (forall nd ts, sound_loop NCall NCall NExponent nd ts (p_powers f nd ts)) /\
    (forall ts, sound NTerm ts (p_term f ts)) /\
    (forall nd ts, sound_loop NTerm NExponent NTerm nd ts (p_factors f nd ts)) /\
    (forall ts, sound NExpr ts (p_expr f ts)) /\
    (forall nd ts, sound_loop NExpr NTerm NExpr nd ts (p_summands f nd ts)).
  Proof.
    induction f as [|f (IHa & IHc & IHe & IHp & IHt & IHf & IHx & IHs)].
    - repeat split; repeat intro; discriminate.
    - split; [|split; [|split; [|split; [|split; [|split; [|split]]]]]].
      + intros ts e rest; rewrite p_atom_S.
        assert (Hun : match sign_of N ts with
            | Some o => do ts1 <- adv ts; do (e, ts2) <- p_term f ts1; Ok (Un o e, ts2)
            | None => Err PynareSyntaxErr end = Ok (e, rest) ->
          exists pre o en, ts = pre ++ rest /\ reads NAtom o en e pre /\ ends NAtom o en rest).
        { destruct (sign_of N ts) as [u|] eqn:Eu; [|discriminate].
          apply sign_of_inv in Eu as (ts0 & ->); intros H.
          apply bind_ok in H as (ts1 & H1 & H); apply adv_inv in H1 as [(t & H1) Hn1]; injection H1 as <- ->.
          apply bind_ok in H as ((e1 & ts2) & H2 & H); injection H as <- <-.
          apply IHt in H2 as (pre & o & en & -> & Hr & He).
          exists (sign_tok N u :: pre), true, en; split; [reflexivity|]; split; [econstructor; eauto|].
          revert He; destruct ts2 as [|[| | | | | |y] ts2]; cbn [ParserSpec.ends ParserSpec.continues]; auto;
            destruct y; auto; intros He; rewrite ?orb_true_r in He; discriminate. }
        intros H.
        destruct ts as [|[|s|n| | | |y] ts]; try (exact (Hun H)).
        * pose proof (period_inv (TId s :: ts) rest e) as Hper.
          destruct m eqn:Em; [apply Hper; auto|]; clear Hper.
          apply bind_ok in H as (ts1 & H1 & H); apply adv_inv in H1 as [(t & H1) Hn1].
          injection H as <- <-; injection H1 as <- ->.
          exists [TId s], false, EId; split; [reflexivity|]; split; [constructor|].
          destruct ts1 as [|[| | | | | |y] ts1]; [congruence|..]; cbn; auto; destruct y; auto.
        * apply bind_ok in H as (ts1 & H1 & H); apply adv_inv in H1 as [(t & H1) Hn1].
          injection H as <- <-; injection H1 as <- ->.
          exists [TNum n], false, EOther; split; [reflexivity|]; split; [constructor|].
          apply ends_closed; exact Hn1.
        * destruct y; try (exact (Hun H)).
          apply bind_ok in H as (ts1 & H1 & H); apply adv_inv in H1 as [(t & H1) Hn1]; injection H1 as <- ->.
          apply bind_ok in H as ((e1 & ts2) & H2 & H).
          apply bind_ok in H as (ts3 & H3 & H); injection H as <- <-.
          apply eat_sym_inv in H3 as [-> Hn3].
          apply IHx in H2 as (pre & o & en & -> & Hr & He).
          exists (lp :: pre ++ [rp]), false, EOther; split; [cbn [app]; rewrite <- app_assoc; reflexivity|].
          split; [econstructor; eauto | apply ends_closed; exact Hn3].
      + intros nd ts e rest; rewrite p_call_S.
        assert (Hend : match ts with TFun _ :: _ => False | _ => True end ->
          match nd with Some n => Ok (n, ts) | None => p_atom f ts end = Ok (e, rest) ->
          (exists pre o en, ts = pre ++ rest /\ reads NCall o en e pre /\ ends NCall o en rest /\
            (nd = None \/ exists g pre', pre = TFun g :: pre')) \/
          (nd = Some e /\ ts = rest /\ match ts with TFun _ :: _ => False | _ => True end)).
        { intros Hnf H; destruct nd as [n|].
          - injection H as <- <-; right; auto.
          - apply IHa in H as (pre & o & en & -> & Hr & He); left; exists pre, o, en.
            split; [reflexivity|]; split; [constructor; exact Hr|]; split; [|left; reflexivity].
            revert He; destruct rest as [|[| | | | | |y] rest]; cbn; auto; destruct y; auto. }
        destruct ts as [|[| | | |g| |y] ts]; try (apply Hend; exact I).
        clear Hend; intros H; left.
        apply bind_ok in H as (ts1 & H1 & H); apply adv_inv in H1 as [(t & H1) Hn1]; injection H1 as <- ->.
        apply bind_ok in H as (ts2 & H2 & H); apply eat_sym_inv in H2 as [-> Hn2].
        apply bind_ok in H as ((e1 & ts3) & H3 & H).
        apply bind_ok in H as (ts4 & H4 & H); apply eat_sym_inv in H4 as [-> Hn4].
        apply IHx in H3 as (pre1 & o1 & en1 & -> & Hr1 & He1).
        apply IHc in H as [(pre & o & en & -> & Hr & He & [Hnd|(g' & pre' & ->)])|(Hnd & -> & Hnf)].
        * discriminate.
        * destruct (reads_call_fun _ _ _ _ _ Hr) as [-> ->].
          exists (TFun g :: lp :: pre1 ++ rp :: TFun g' :: pre'), false, ECall.
          split; [cbn [app]; rewrite <- app_assoc; reflexivity|].
          split; [eapply R_ignored; eauto|]; split; [exact He|eauto].
        * injection Hnd as <-.
          exists (TFun g :: lp :: pre1 ++ [rp]), false, ECall.
          split; [cbn [app]; rewrite <- app_assoc; reflexivity|].
          split; [econstructor; eauto|]; split; [|eauto].
          revert Hn4 Hnf; clear; destruct rest as [|[| | | | | |y] rest]; cbn; try congruence; try tauto.
          destruct y; auto.
      + intros ts e rest; rewrite p_exponent_S; intros H.
        apply bind_ok in H as ((n & ts1) & H1 & H).
        apply IHc in H1 as [(pre & o & en & -> & Hr & He & _)|(Hnd & _)]; [|discriminate].
        destruct (IHp n ts1 e rest pre o en H Hr He) as (pre' & o' & en' & E & Hr' & He').
        exists pre', o', en'; auto.
      + intros nd ts e rest pre0 o0 en0; rewrite p_powers_S; intros H Hr0 He0.
        destruct (is_sym N Power ts) eqn:Ep.
        * apply is_sym_inv in Ep as (ts0 & ->).
          apply bind_ok in H as (ts1 & H1 & H); apply adv_inv in H1 as [(t & H1) Hn1]; injection H1 as <- ->.
          apply bind_ok in H as ((r & ts2) & H2 & H).
          apply IHe in H2 as (pre1 & o1 & en1 & -> & Hr1 & He1).
          assert (o0 = false) as ->.
          { cbn in He0; rewrite orb_false_r in He0; exact He0. }
          assert (Hres : Ok (Bin BPow nd r, ts2) = Ok (e, rest)).
          { revert H; destruct m; [|auto].
            intros H; destruct f as [|f]; [discriminate|]; revert H.
            cbn [Parser.p_powers].
            destruct ts2 as [|[| | | | | |y] ts2]; auto; destruct y; auto.
            cbn in He1; rewrite orb_true_r in He1; discriminate. }
          injection Hres as <- <-.
          exists (pre0 ++ TSym Power :: pre1), o1, en1.
          split; [rewrite <- app_assoc; reflexivity|]; split; [eapply R_pow; eauto | exact He1].
        * injection H as <- <-; exists pre0, o0, en0; split; [reflexivity|].
          split; [constructor; exact Hr0|].
          revert Ep He0; clear; destruct ts as [|[| | | | | |y] ts]; cbn [ParserSpec.ends ParserSpec.continues]; auto.
          destruct y; cbn; auto; discriminate.
      + intros ts e rest; rewrite p_term_S; intros H.
        apply bind_ok in H as ((n & ts1) & H1 & H).
        apply IHe in H1 as (pre & o & en & -> & Hr & He).
        destruct (IHf n ts1 e rest pre o en H) as (pre' & o' & en' & E & Hr' & He');
          [constructor; exact Hr | exact He |].
        exists pre', o', en'; auto.
      + intros nd ts e rest pre0 o0 en0; rewrite p_factors_S; intros H Hr0 He0.
        destruct (mul_of N ts) as [b|] eqn:Em.
        * apply bind_ok in H as (ts1 & H1 & H); apply adv_inv in H1 as [(t & ->) Hn1].
          apply bind_ok in H as ((r & ts2) & H2 & H).
          apply IHe in H2 as (pre1 & o1 & en1 & -> & Hr1 & He1).
          destruct t as [| | | | | |y]; try discriminate Em.
          assert (o0 = false) as -> by
            (destruct y; try discriminate Em; cbn in He0; rewrite orb_false_r in He0; exact He0).
          destruct (IHf (Bin b nd r) ts2 e rest (pre0 ++ TSym y :: pre1) o1 en1 H) as (pre' & o' & en' & E & Hr' & He').
          { destruct y; try discriminate Em; injection Em as <-; [eapply R_mul; eauto | eapply R_div; eauto]. }
          { exact He1. }
          exists pre', o', en'; split; [rewrite <- E, <- app_assoc; reflexivity | auto].
        * injection H as <- <-; exists pre0, o0, en0; split; [reflexivity|]; split; [exact Hr0|].
          revert Em He0; clear; destruct ts as [|[| | | | | |y] ts]; cbn [ParserSpec.ends ParserSpec.continues]; auto.
          destruct y; cbn; auto; discriminate.
      + intros ts e rest; rewrite p_expr_S; intros H.
        apply bind_ok in H as ((n & ts1) & H1 & H).
        apply IHt in H1 as (pre & o & en & -> & Hr & He).
        destruct (IHs n ts1 e rest pre o en H) as (pre' & o' & en' & E & Hr' & He');
          [constructor; exact Hr | exact He |].
        exists pre', o', en'; auto.
      + intros nd ts e rest pre0 o0 en0; rewrite p_summands_S; intros H Hr0 He0.
        destruct (add_of N ts) as [b|] eqn:Em.
        * apply bind_ok in H as (ts1 & H1 & H); apply adv_inv in H1 as [(t & ->) Hn1].
          apply bind_ok in H as ((r & ts2) & H2 & H).
          apply IHt in H2 as (pre1 & o1 & en1 & -> & Hr1 & He1).
          destruct t as [| | | | | |y]; try discriminate Em.
          destruct (IHs (Bin b nd r) ts2 e rest (pre0 ++ TSym y :: pre1) o1 en1 H) as (pre' & o' & en' & E & Hr' & He').
          { destruct y; try discriminate Em; injection Em as <-; [eapply R_add; eauto | eapply R_sub; eauto]. }
          { exact He1. }
          exists pre', o', en'; split; [rewrite <- E, <- app_assoc; reflexivity | auto].
        * injection H as <- <-; exists pre0, o0, en0; split; [reflexivity|]; split; [exact Hr0|].
          revert Em He0; clear; destruct ts as [|[| | | | | |y] ts]; cbn [ParserSpec.ends ParserSpec.continues]; auto.
          destruct y; cbn; auto; discriminate.
  Qed.

  (** ** Fuel suffices *)
  Definition nof {A} (r : res A) : Prop := r <> Err OutOfFuel.
  Lemma nof_bind {A B} (r : res A) (k : A -> res B) :
    nof r -> (forall a, r = Ok a -> nof (k a)) -> nof (bind r k).
  Proof.
    unfold nof; destruct r as [a|e]; cbn [bind]; [intros _ H; exact (H a eq_refl)|].
    intros H _ X; apply H; congruence.
  Qed.
  Lemma nof_ok {A} (a : A) : nof (Ok a). Proof. discriminate. Qed.
  Lemma nof_adv ts : nof (adv ts).
  Proof. destruct ts as [|? [|]]; discriminate. Qed.
  Lemma nof_eat_sym y ts : nof (eat_sym N y ts).
  Proof. unfold eat_sym; destruct (is_sym N y ts); [apply nof_adv|discriminate]. Qed.
  Lemma nof_eat_id ts : nof (eat_id N ts).
  Proof.
    unfold eat_id; destruct ts as [|[] ts]; try discriminate.
    apply nof_bind; [apply nof_adv|]; intros; apply nof_ok.
  Qed.
  Lemma nof_eat_num ts : nof (eat_num N ts).
  Proof.
    unfold eat_num; destruct ts as [|[] ts]; try discriminate.
    apply nof_bind; [apply nof_adv|]; intros; apply nof_ok.
  Qed.
  Lemma nof_period ts : nof (maybe_period_variable N trunc ts).
  Proof.
    apply nof_bind; [apply nof_eat_id|]; intros [x ts1] _.
    destruct (is_sym N LPare ts1); [|apply nof_ok].
    apply nof_bind; [|intros []; intros; apply nof_ok].
    apply nof_bind; [apply nof_eat_sym|]; intros ts2 _.
    destruct (sign_of N ts2); [|discriminate].
    apply nof_bind; [apply nof_adv|]; intros ts3 _.
    apply nof_bind; [apply nof_eat_num|]; intros [n ts4] _.
    apply nof_bind; [apply nof_eat_sym|]; intros ts5 _.
    apply nof_bind; [unfold offset; destruct (trunc n); discriminate|]; intros; apply nof_ok.
  Qed.

  Lemma adv_len (ts ts' : toks) : adv ts = Ok ts' -> List.length ts = S (List.length ts').
  Proof. intros H; apply adv_inv in H as [(t & ->) _]; reflexivity. Qed.
  Lemma eat_sym_len y (ts ts' : toks) : eat_sym N y ts = Ok ts' -> List.length ts = S (List.length ts').
  Proof. intros H; apply eat_sym_inv in H as [-> _]; reflexivity. Qed.

  Lemma len_suffix {t} {ts : toks} {r e rest} :
    sound t ts r -> r = Ok (e, rest) -> List.length rest <= List.length ts.
  Proof.
    intros S H; destruct (S _ _ H) as (pre & o & en & -> & _); rewrite app_length; lia.
  Qed.

  Lemma fuel_enough f :
    (forall ts, 8 * List.length ts + 1 <= f -> nof (p_atom f ts)) /\
    (forall nd ts, 8 * List.length ts + 2 <= f -> nof (p_call f nd ts)) /\
    (forall ts, 8 * List.length ts + 3 <= f -> nof (p_exponent f ts)) /\
    (forall nd ts, 8 * List.length ts + 1 <= f -> nof (p_powers f nd ts)) /\
    (forall ts, 8 * List.length ts + 4 <= f -> nof (p_term f ts)) /\
    (forall nd ts, 8 * List.length ts + 1 <= f -> nof (p_factors f nd ts)) /\
    (forall ts, 8 * List.length ts + 5 <= f -> nof (p_expr f ts)) /\
    (forall nd ts, 8 * List.length ts + 1 <= f -> nof (p_summands f nd ts)).
  Proof.
    induction f as [|f (IHa & IHc & IHe & IHp & IHt & IHf & IHx & IHs)].
    - repeat split; intros; lia.
    - pose proof (soundness f) as (Sa & Sc & Se & Sp & St & Sf & Sx & Ss).
      split; [|split; [|split; [|split; [|split; [|split; [|split]]]]]].
      + intros ts L; rewrite p_atom_S.
        assert (Hun : nof match sign_of N ts with
            | Some o => do ts1 <- adv ts; do (e, ts2) <- p_term f ts1; Ok (Un o e, ts2)
            | None => Err PynareSyntaxErr end).
        { destruct (sign_of N ts); [|discriminate].
          apply nof_bind; [apply nof_adv|]; intros ts1 H1; apply adv_len in H1.
          apply nof_bind; [apply IHt; lia|]; intros []; intros; apply nof_ok. }
        destruct ts as [|[|s|n| | | |y] ts]; try exact Hun.
        * destruct m; [apply nof_period|]; apply nof_bind; [apply nof_adv|]; intros; apply nof_ok.
        * apply nof_bind; [apply nof_adv|]; intros; apply nof_ok.
        * destruct y; try exact Hun.
          apply nof_bind; [apply nof_adv|]; intros ts1 H1; apply adv_len in H1.
          apply nof_bind; [apply IHx; lia|]; intros [e ts2] _.
          apply nof_bind; [apply nof_eat_sym|]; intros; apply nof_ok.
      + intros nd ts L; rewrite p_call_S.
        destruct ts as [|[| | | |g| |y] ts]; try (destruct nd; [apply nof_ok|apply IHa; lia]).
        apply nof_bind; [apply nof_adv|]; intros ts1 H1; apply adv_len in H1.
        apply nof_bind; [apply nof_eat_sym|]; intros ts2 H2; apply eat_sym_len in H2.
        apply nof_bind; [apply IHx; lia|]; intros [e ts3] H3; apply (len_suffix (Sx ts2)) in H3.
        apply nof_bind; [apply nof_eat_sym|]; intros ts4 H4; apply eat_sym_len in H4.
        apply IHc; lia.
      + intros ts L; rewrite p_exponent_S.
        apply nof_bind; [apply IHc; lia|]; intros [n ts1] H1.
        apply IHp.
        apply Sc in H1 as [(pre & o & en & -> & _)|(Hn & _)]; [|discriminate].
        rewrite app_length in L; lia.
      + intros nd ts L; rewrite p_powers_S.
        destruct (is_sym N Power ts); [|apply nof_ok].
        apply nof_bind; [apply nof_adv|]; intros ts1 H1; apply adv_len in H1.
        apply nof_bind; [apply IHe; lia|]; intros [r ts2] H2; apply (len_suffix (Se ts1)) in H2.
        assert (nof (p_powers f (Bin BPow nd r) ts2)) as H by (apply IHp; lia).
        revert H; destruct m; [auto|intros _; apply nof_ok].
      + intros ts L; rewrite p_term_S.
        apply nof_bind; [apply IHe; lia|]; intros [n ts1] H1; apply (len_suffix (Se ts)) in H1.
        apply IHf; lia.
      + intros nd ts L; rewrite p_factors_S.
        destruct (mul_of N ts); [|apply nof_ok].
        apply nof_bind; [apply nof_adv|]; intros ts1 H1; apply adv_len in H1.
        apply nof_bind; [apply IHe; lia|]; intros [r ts2] H2; apply (len_suffix (Se ts1)) in H2.
        apply IHf; lia.
      + intros ts L; rewrite p_expr_S.
        apply nof_bind; [apply IHt; lia|]; intros [n ts1] H1; apply (len_suffix (St ts)) in H1.
        apply IHs; lia.
      + intros nd ts L; rewrite p_summands_S.
        destruct (add_of N ts); [|apply nof_ok].
        apply nof_bind; [apply nof_adv|]; intros ts1 H1; apply adv_len in H1.
        apply nof_bind; [apply IHt; lia|]; intros [r ts2] H2; apply (len_suffix (St ts1)) in H2.
        apply IHs; lia.
  Qed.

  Notation expr_of := (expr_of N trunc m).

  Lemma expr_nof ts : nof (expr_of ts).
  Proof. apply (fuel_enough (enough N ts)); unfold enough; lia. Qed.

  Lemma expr_eval ts r : eval (fun f => p_expr f ts) r -> expr_of ts = r.
  Proof.
    intros (f0 & H).
    pose proof (mono_le (fun f => p_expr f ts) (enough N ts) (Nat.max f0 (enough N ts))
      (fun f => proj1 (proj2 (proj2 (proj2 (proj2 (proj2 (proj2 (mono f))))))) ts) ltac:(lia)) as [E|E].
    - exfalso; exact (expr_nof ts E).
    - unfold Parser.expr_of; rewrite E; apply H; lia.
  Qed.

  (** Parsing an expression is reading in the grammar. *)
  Theorem expr_iff ts e rest :
    expr_of ts = Ok (e, rest) <->
    exists pre o en, ts = pre ++ rest /\ reads NExpr o en e pre /\ ends NExpr o en rest.
  Proof.
    split.
    - intros H; exact (proj1 (proj2 (proj2 (proj2 (proj2 (proj2 (proj2 (soundness _))))))) ts e rest H).
    - intros (pre & o & en & -> & Hr & He); apply expr_eval.
      apply (reads_complete NExpr o en e pre Hr); [apply ends_expr_term; exact He|].
      apply (summands_stop o en); exact He.
  Qed.
End Proofs.
