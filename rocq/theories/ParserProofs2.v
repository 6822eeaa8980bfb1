From Verif Require Import Base Syntax Lexer Parser ParserSpec ParserProofs.

Section Grammar.
  Variable N : Type.
  Variable trunc : N -> option Z.
  Variable m : bool.
  Notation derives := (derives N trunc m).

  Lemma juxtaposed_app (a b : list (tok N)) :
    juxtaposed N (a ++ b) = false -> juxtaposed N a = false /\ juxtaposed N b = false.
  Proof.
    induction a as [|t a IH]; [auto|]; cbn [app]; intros H.
    assert (H' : juxtaposed N (a ++ b) = false).
    { revert H; destruct t as [| | | | | |y]; cbn [juxtaposed]; auto; destruct y; auto.
      destruct (a ++ b) as [|[]]; auto; discriminate. }
    destruct (IH H') as [Ha Hb]; split; [|exact Hb].
    revert H; destruct t as [| | | | | |y]; cbn [juxtaposed]; auto; destruct y; auto.
    destruct a as [|t' a]; cbn [app]; auto; destruct t'; auto.
  Qed.

  Lemma juxtaposed_cons t (a : list (tok N)) : juxtaposed N (t :: a) = false -> juxtaposed N a = false.
  Proof. intros H; apply (juxtaposed_app [t] a); exact H. Qed.

  (** The reading of the parser follows the docstring grammar when no function
      name stands directly behind a closing parenthesis. *)
  Lemma reads_derives j t o en e ts :
    reads N trunc m j t o en e ts -> j = false \/ juxtaposed N ts = false -> derives t e ts.
  Proof.
    intros H; induction H; intros J; try (constructor; auto; fail).
    - constructor; apply IHreads; destruct J as [J|J]; [left; exact J|right].
      apply juxtaposed_cons in J; apply juxtaposed_app in J as [J _]; exact J.
    - constructor; apply IHreads; destruct J as [J|J]; [left; exact J|right].
      apply juxtaposed_cons in J; exact J.
    - constructor; apply IHreads; destruct J as [J|J]; [left; exact J|right].
      do 2 apply juxtaposed_cons in J; apply juxtaposed_app in J as [J _]; exact J.
    - exfalso; destruct J as [J|J]; [congruence|].
      do 2 apply juxtaposed_cons in J; apply juxtaposed_app in J as [_ J]; discriminate J.
    - apply D_pow; [apply IHreads1|apply IHreads2]; destruct J as [J|J]; auto; right;
        apply juxtaposed_app in J as [J1 J2]; auto; apply juxtaposed_cons in J2; auto.
    - apply D_mul; [apply IHreads1|apply IHreads2]; destruct J as [J|J]; auto; right;
        apply juxtaposed_app in J as [J1 J2]; auto; apply juxtaposed_cons in J2; auto.
    - apply D_div; [apply IHreads1|apply IHreads2]; destruct J as [J|J]; auto; right;
        apply juxtaposed_app in J as [J1 J2]; auto; apply juxtaposed_cons in J2; auto.
    - apply D_add; [apply IHreads1|apply IHreads2]; destruct J as [J|J]; auto; right;
        apply juxtaposed_app in J as [J1 J2]; auto; apply juxtaposed_cons in J2; auto.
    - apply D_sub; [apply IHreads1|apply IHreads2]; destruct J as [J|J]; auto; right;
        apply juxtaposed_app in J as [J1 J2]; auto; apply juxtaposed_cons in J2; auto.
  Qed.

  (** ** Printed expressions are in the grammar *)
  Variable num_for : Z -> N.
  Notation print := (print N num_for).
  Notation printable := (printable N trunc m num_for).
  Variable j : bool.
  Notation reads := (reads N trunc m j).

  Definition print_ok (ctx : nat) (e : ast N) : Prop :=
    match ctx with
    | 0 => exists o en, reads NExpr o en e (print 0 e)
    | 1 => exists o en, reads NTerm o en e (print 1 e)
    | 2 => exists en, reads NTerm false en e (print 2 e)
    | 3 => exists en, reads NExponent false en e (print 3 e)
    | _ => exists en, reads NCall false en e (print 4 e)
    end.
  Definition all_ok e := print_ok 0 e /\ print_ok 1 e /\ print_ok 2 e /\ print_ok 3 e /\ print_ok 4 e.

  Lemma call_ok e ts en :
    (forall c, print c e = ts) -> reads NCall false en e ts -> all_ok e.
  Proof.
    intros E H; unfold all_ok, print_ok; rewrite !E.
    repeat split; eauto 10 using R_call, R_exponent, R_term.
  Qed.

  Lemma print_reads e : printable e -> all_ok e.
  Proof.
    induction e as [n|x|x k|u e IH|o l IHl r IHr|f e IH|o l IHl r IHr]; cbn [ParserSpec.printable]; intros H.
    - apply (call_ok _ [TNum n] EOther); [reflexivity|]; constructor; constructor.
    - apply (call_ok _ [TId x] EId); [reflexivity|]; constructor; constructor.
    - destruct H as [Hm Hk].
      apply (call_ok _ (print 0 (PVar x k)) EOther); [reflexivity|]; cbn [ParserSpec.print]; constructor.
      assert (k = signed (if (k <? 0)%Z then UNeg else UPos) (Z.abs k)) as Ek
        by (destruct (Z.ltb_spec k 0); cbn [signed]; lia).
      rewrite Ek at 1.
      replace (if (k <? 0)%Z then TSym Minus else TSym Plus) with
        (sign_tok N (if (k <? 0)%Z then UNeg else UPos)) by (destruct (k <? 0)%Z; reflexivity).
      apply R_period; assumption.
    - destruct (IH H) as (_ & (o1 & en & H1) & _).
      assert (Ha : reads NAtom true en (Un u e) (sign_tok N u :: print 1 e)) by (econstructor; exact H1).
      assert (Ht : reads NTerm true en (Un u e) (sign_tok N u :: print 1 e))
        by (apply R_exponent, R_call, R_atom; exact Ha).
      assert (Hp : reads NCall false EOther (Un u e) (lp :: (sign_tok N u :: print 1 e) ++ [rp])).
      { apply R_atom; eapply R_paren; apply R_term; exact Ht. }
      unfold all_ok, print_ok; cbn [ParserSpec.print Nat.leb paren].
      repeat split; eauto 10 using R_call, R_exponent, R_term.
    - destruct H as [Hl Hr].
      destruct (IHl Hl) as ((o0 & en0 & L0) & (o1 & en1 & L1) & (en2 & L2) & (en3 & L3) & (en4 & L4)).
      destruct (IHr Hr) as ((p0 & fn0 & R0) & (p1 & fn1 & R1) & (fn2 & R2) & (fn3 & R3) & (fn4 & R4)).
      unfold all_ok, print_ok.
      assert (Hpar : forall o en e ts, reads NExpr o en e ts -> reads NCall false EOther e (lp :: ts ++ [rp]))
        by (intros; apply R_atom; eapply R_paren; eassumption).
      destruct o; cbn [ParserSpec.print Nat.leb paren bop_tok].
      + assert (X : reads NExpr p1 fn1 (Bin BAdd l r) (print 0 l ++ TSym Plus :: print 1 r)) by (eapply R_add; eassumption).
        pose proof (Hpar _ _ _ _ X); repeat split; eauto 10 using R_call, R_exponent, R_term.
      + assert (X : reads NExpr p1 fn1 (Bin BSub l r) (print 0 l ++ TSym Minus :: print 1 r)) by (eapply R_sub; eassumption).
        pose proof (Hpar _ _ _ _ X); repeat split; eauto 10 using R_call, R_exponent, R_term.
      + assert (X : reads NTerm false fn3 (Bin BMul l r) (print 2 l ++ TSym Mul :: print 3 r)) by (eapply R_mul; eassumption).
        pose proof (Hpar _ _ _ _ (R_term _ _ _ _ _ _ _ _ X)); repeat split; eauto 10 using R_call, R_exponent, R_term.
      + assert (X : reads NTerm false fn3 (Bin BDiv l r) (print 2 l ++ TSym Div :: print 3 r)) by (eapply R_div; eassumption).
        pose proof (Hpar _ _ _ _ (R_term _ _ _ _ _ _ _ _ X)); repeat split; eauto 10 using R_call, R_exponent, R_term.
      + assert (X : reads NExponent false fn3 (Bin BPow l r) (print 4 l ++ TSym Power :: print 3 r)) by (eapply R_pow; eassumption).
        pose proof (Hpar _ _ _ _ (R_term _ _ _ _ _ _ _ _ (R_exponent _ _ _ _ _ _ _ _ X))); repeat split; eauto 10 using R_call, R_exponent, R_term.
    - destruct (IH H) as ((o1 & en & H1) & _).
      apply (call_ok _ (print 0 (Fun f e)) ECall); [reflexivity|]; cbn [ParserSpec.print]; eapply R_fun; exact H1.
    - contradiction.
  Qed.
End Grammar.

Section Strings.
  Variable N : Type.
  Variable trunc : N -> option Z.

  (** What may stand behind a whole expression. *)
  Definition closes (rest : list (tok N)) : Prop :=
    match rest with
    | [] => False
    | TFun _ :: _ | TSym (LPare | Power | Mul | Div | Plus | Minus) :: _ => False
    | _ => True
    end.

  Lemma closes_ends m t o en rest : closes rest -> ends N m t o en rest.
  Proof.
    destruct rest as [|[| | | | | |y] rest]; cbn; auto; try contradiction; destruct y; auto; contradiction.
  Qed.

  Lemma expr_print m num_for e rest :
    printable N trunc m num_for e -> closes rest ->
    expr_of N trunc m (print N num_for 0 e ++ rest) = Ok (e, rest).
  Proof.
    intros H Hc; apply expr_iff.
    destruct (print_reads N trunc m num_for true e H) as ((o & en & Hr) & _).
    exists (print N num_for 0 e), o, en; split; [reflexivity|]; split; [exact Hr|].
    apply closes_ends; exact Hc.
  Qed.

  (** A whole expression string: an expression, or a comparison of two. *)
  Definition printable_top (num_for : Z -> N) (e : ast N) : Prop :=
    match e with
    | Comp _ l r => printable N trunc false num_for l /\ printable N trunc false num_for r
    | _ => printable N trunc false num_for e
    end.

  Lemma cop_closes o (rest : list (tok N)) : closes (cop_tok N o :: rest).
  Proof. destruct o; exact I. Qed.

  Lemma comp_of_cop o (rest : list (tok N)) : comp_of N (cop_tok N o :: rest) = Some o.
  Proof. destruct o; reflexivity. Qed.

  Lemma parse_print num_for e tail :
    printable_top num_for e ->
    parse_tokens N trunc (print N num_for 0 e ++ TEof :: tail) = Ok e.
  Proof.
    intros H.
    assert (Hsimple : printable N trunc false num_for e ->
      parse_tokens N trunc (print N num_for 0 e ++ TEof :: tail) = Ok e).
    { intros Hp; unfold parse_tokens.
      destruct (print N num_for 0 e ++ TEof :: tail) as [|t ts] eqn:E.
      - destruct (print N num_for 0 e); discriminate.
      - rewrite <- E; unfold comp_expr, expr.
        rewrite expr_print by (auto; exact I); reflexivity. }
    destruct e; try (apply Hsimple; exact H).
    destruct H as [Hl Hr]; clear Hsimple.
    cbn [print]; rewrite <- app_assoc; cbn [app].
    unfold parse_tokens.
    destruct (print N num_for 0 e1 ++ cop_tok N o :: print N num_for 0 e2 ++ TEof :: tail) as [|t ts] eqn:E;
      [destruct (print N num_for 0 e1); discriminate|]; rewrite <- E.
    unfold comp_expr, expr.
    rewrite expr_print by (auto; apply cop_closes); cbn [bind].
    rewrite comp_of_cop, adv_cons by (destruct (print N num_for 0 e2); discriminate); cbn [bind].
    rewrite expr_print by (auto; exact I); reflexivity.
  Qed.

  (** Exactly what [parse_string] does with its tokens. *)
  Lemma parse_tokens_iff ts e :
    parse_tokens N trunc ts = Ok e <->
    (exists pre rest o en, ts = pre ++ rest /\ reads N trunc false true NExpr o en e pre /\
       ends N false NExpr o en rest /\ comp_of N rest = None) \/
    (exists c l r tl tr rest o en o' en', e = Comp c l r /\ ts = tl ++ cop_tok N c :: tr ++ rest /\
       reads N trunc false true NExpr o en l tl /\ reads N trunc false true NExpr o' en' r tr /\
       ends N false NExpr o' en' rest).
  Proof.
    unfold parse_tokens; split.
    - intros H.
      assert (H0 : (do (e, _) <- comp_expr N trunc ts; Ok e) = Ok e) by (destruct ts; [discriminate|exact H]).
      clear H; apply bind_ok in H0 as ((e0 & rest) & H & He); injection He as ->.
      apply bind_ok in H as ((l & ts1) & H1 & H).
      apply expr_iff in H1 as (pre & o & en & -> & Hr & He).
      destruct (comp_of N ts1) as [c|] eqn:Ec.
      + right; apply bind_ok in H as (ts2 & H2 & H); apply adv_inv in H2 as [(t & ->) _].
        apply bind_ok in H as ((r & ts3) & H3 & H); injection H as <- <-.
        apply expr_iff in H3 as (pre' & o' & en' & -> & Hr' & He').
        exists c, l, r, pre, pre', ts3, o, en, o', en'; repeat split; auto.
        destruct t as [| | | | | |y]; try discriminate; destruct y; try discriminate; injection Ec as <-; reflexivity.
      + left; injection H as <- <-; exists pre, ts1, o, en; auto.
    - intros [(pre & rest & o & en & -> & Hr & He & Hc)|(c & l & r & tl & tr & rest & o & en & o' & en' & -> & -> & Hl & Hr & He)].
      + pose proof (ends_ne _ _ _ _ _ _ He) as Hn.
        assert (E : comp_expr N trunc (pre ++ rest) = Ok (e, rest)).
        { unfold comp_expr, expr.
          rewrite (proj2 (expr_iff N trunc false (pre ++ rest) e rest)) by eauto 10; cbn [bind]; rewrite Hc; reflexivity. }
        destruct (pre ++ rest) as [|t ts] eqn:Et; [apply app_eq_nil in Et as [_ ->]; congruence|].
        rewrite E; reflexivity.
      + pose proof (ends_ne _ _ _ _ _ _ He) as Hn.
        assert (E : comp_expr N trunc (tl ++ cop_tok N c :: tr ++ rest) = Ok (Comp c l r, rest)).
        { unfold comp_expr, expr.
          rewrite (proj2 (expr_iff N trunc false _ l (cop_tok N c :: tr ++ rest))); cbn [bind].
          2: { exists tl, o, en; repeat split; auto; apply closes_ends, cop_closes. }
          rewrite comp_of_cop, adv_cons by (apply app_ne; exact Hn); cbn [bind].
          rewrite (proj2 (expr_iff N trunc false _ r rest)) by eauto 10; reflexivity. }
        destruct (tl ++ cop_tok N c :: tr ++ rest) as [|t ts] eqn:Et; [destruct tl; discriminate|].
        rewrite E; reflexivity.
  Qed.

  (** A sign under a product or power takes the whole following product. *)
  Lemma minus_takes_product num_for a b c rest (o : bop) :
    (o = BMul \/ o = BDiv) ->
    printable N trunc false num_for a -> printable N trunc false num_for b ->
    printable N trunc false num_for c -> closes rest ->
    expr_of N trunc false
      (print N num_for 2 a ++ bop_tok N o :: TSym Minus :: print N num_for 3 b ++
       TSym Mul :: print N num_for 3 c ++ rest) =
    Ok (Bin o a (Un UNeg (Bin BMul b c)), rest).
  Proof.
    intros Ho Ha Hb Hc Hcl; apply expr_iff.
    destruct (print_reads N trunc false num_for true a Ha) as (_ & _ & (ena & A) & _).
    destruct (print_reads N trunc false num_for true b Hb) as (_ & _ & _ & (enb & B) & _).
    destruct (print_reads N trunc false num_for true c Hc) as (_ & _ & _ & (enc & C) & _).
    eexists (print N num_for 2 a ++ bop_tok N o :: sign_tok N UNeg :: print N num_for 3 b ++
       TSym Mul :: print N num_for 3 c), true, enc.
    split; [cbn [sign_tok]; rewrite <- !app_assoc; cbn [app]; rewrite <- !app_assoc; reflexivity|].
    split; [|apply closes_ends; exact Hcl].
    assert (U : reads N trunc false true NExponent true enc (Un UNeg (Bin BMul b c))
      (sign_tok N UNeg :: print N num_for 3 b ++ TSym Mul :: print N num_for 3 c)).
    { apply R_call, R_atom; eapply R_unary; eapply R_mul; [apply R_exponent; exact B|exact C]. }
    destruct Ho as [-> | ->]; apply R_term; [eapply R_mul | eapply R_div]; eassumption.
  Qed.

  Lemma minus_takes_product_pow num_for a b c rest :
    printable N trunc false num_for a -> printable N trunc false num_for b ->
    printable N trunc false num_for c -> closes rest ->
    expr_of N trunc false
      (print N num_for 4 a ++ TSym Power :: TSym Minus :: print N num_for 3 b ++
       TSym Mul :: print N num_for 3 c ++ rest) =
    Ok (Bin BPow a (Un UNeg (Bin BMul b c)), rest).
  Proof.
    intros Ha Hb Hc Hcl; apply expr_iff.
    destruct (print_reads N trunc false num_for true a Ha) as (_ & _ & _ & _ & (ena & A)).
    destruct (print_reads N trunc false num_for true b Hb) as (_ & _ & _ & (enb & B) & _).
    destruct (print_reads N trunc false num_for true c Hc) as (_ & _ & _ & (enc & C) & _).
    eexists (print N num_for 4 a ++ TSym Power :: sign_tok N UNeg :: print N num_for 3 b ++
       TSym Mul :: print N num_for 3 c), true, enc.
    split; [cbn [sign_tok]; rewrite <- !app_assoc; cbn [app]; rewrite <- !app_assoc; reflexivity|].
    split; [|apply closes_ends; exact Hcl].
    apply R_term, R_exponent; eapply R_pow; [exact A|].
    apply R_call, R_atom; eapply R_unary; eapply R_mul; [apply R_exponent; exact B|exact C].
  Qed.

  Lemma parse_tokens_nof ts : parse_tokens N trunc ts <> Err OutOfFuel.
  Proof.
    assert (nof (do (e, _) <- comp_expr N trunc ts; Ok e)) as H.
    { apply nof_bind; [|intros []; intros; apply nof_ok].
      apply nof_bind; [apply expr_nof|]; intros [l ts1] _.
      destruct (comp_of N ts1); [|apply nof_ok].
      apply nof_bind; [apply nof_adv|]; intros ts2 _.
      apply nof_bind; [apply expr_nof|]; intros []; intros; apply nof_ok. }
    destruct ts; [discriminate|exact H].
  Qed.

  (** The only way for a step to hang is to raise [Hang] itself. *)
  Definition nohang {A} (r : res A) : Prop := r <> Err Hang.
  Lemma nohang_bind {A B} (r : res A) (k : A -> res B) :
    nohang r -> (forall a, r = Ok a -> nohang (k a)) -> nohang (bind r k).
  Proof.
    unfold nohang; destruct r as [a|e]; cbn [bind]; [intros _ H; exact (H a eq_refl)|].
    intros H _ X; apply H; congruence.
  Qed.
  Lemma nohang_ok {A} (a : A) : nohang (Ok a). Proof. discriminate. Qed.
  Lemma nohang_adv ts : nohang (adv N ts).
  Proof. destruct ts as [|? [|]]; discriminate. Qed.
  Lemma nohang_eat_sym y ts : nohang (eat_sym N y ts).
  Proof. unfold eat_sym; destruct (is_sym N y ts); [apply nohang_adv|discriminate]. Qed.
  Lemma nohang_eat_kw y ts : nohang (eat_kw N y ts).
  Proof. unfold eat_kw; destruct (is_kw N y ts); [apply nohang_adv|discriminate]. Qed.
  Lemma nohang_eat_id ts : nohang (eat_id N ts).
  Proof.
    unfold eat_id; destruct ts as [|[] ts]; try discriminate.
    apply nohang_bind; [apply nohang_adv|]; intros; apply nohang_ok.
  Qed.
  Lemma nohang_eat_num ts : nohang (eat_num N ts).
  Proof.
    unfold eat_num; destruct ts as [|[] ts]; try discriminate.
    apply nohang_bind; [apply nohang_adv|]; intros; apply nohang_ok.
  Qed.
  Lemma nohang_eat_str ts : nohang (eat_str N ts).
  Proof.
    unfold eat_str; destruct ts as [|[] ts]; try discriminate.
    apply nohang_bind; [apply nohang_adv|]; intros; apply nohang_ok.
  Qed.
  Lemma nohang_period ts : nohang (maybe_period_variable N trunc ts).
  Proof.
    apply nohang_bind; [apply nohang_eat_id|]; intros [x ts1] _.
    destruct (is_sym N LPare ts1); [|apply nohang_ok].
    apply nohang_bind; [|intros []; intros; apply nohang_ok].
    apply nohang_bind; [apply nohang_eat_sym|]; intros ts2 _.
    destruct (sign_of N ts2); [|discriminate].
    apply nohang_bind; [apply nohang_adv|]; intros ts3 _.
    apply nohang_bind; [apply nohang_eat_num|]; intros [n ts4] _.
    apply nohang_bind; [apply nohang_eat_sym|]; intros ts5 _.
    apply nohang_bind; [unfold offset; destruct (trunc n); discriminate|]; intros; apply nohang_ok.
  Qed.

  Lemma expr_nohang_all m f :
    (forall ts, nohang (p_atom N trunc m f ts)) /\
    (forall nd ts, nohang (p_call N trunc m f nd ts)) /\
    (forall ts, nohang (p_exponent N trunc m f ts)) /\
    (forall nd ts, nohang (p_powers N trunc m f nd ts)) /\
    (forall ts, nohang (p_term N trunc m f ts)) /\
    (forall nd ts, nohang (p_factors N trunc m f nd ts)) /\
    (forall ts, nohang (p_expr N trunc m f ts)) /\
    (forall nd ts, nohang (p_summands N trunc m f nd ts)).
  Proof.
    induction f as [|f (IHa & IHc & IHe & IHp & IHt & IHf & IHx & IHs)].
    - repeat split; intros; discriminate.
    - split; [|split; [|split; [|split; [|split; [|split; [|split]]]]]].
      + intros ts; rewrite p_atom_S.
        assert (Hun : nohang match sign_of N ts with
            | Some o => do ts1 <- adv N ts; do (e, ts2) <- p_term N trunc m f ts1; Ok (Un o e, ts2)
            | None => Err PynareSyntaxErr end).
        { destruct (sign_of N ts); [|discriminate].
          apply nohang_bind; [apply nohang_adv|]; intros ts1 _.
          apply nohang_bind; [apply IHt|]; intros []; intros; apply nohang_ok. }
        destruct ts as [|[|s|n| | | |y] ts]; try exact Hun.
        * destruct m; [apply nohang_period|]; apply nohang_bind; [apply nohang_adv|]; intros; apply nohang_ok.
        * apply nohang_bind; [apply nohang_adv|]; intros; apply nohang_ok.
        * destruct y; try exact Hun.
          apply nohang_bind; [apply nohang_adv|]; intros ts1 _.
          apply nohang_bind; [apply IHx|]; intros [e ts2] _.
          apply nohang_bind; [apply nohang_eat_sym|]; intros; apply nohang_ok.
      + intros nd ts; rewrite p_call_S.
        destruct ts as [|[| | | |g| |y] ts]; try (destruct nd; [apply nohang_ok|apply IHa]).
        apply nohang_bind; [apply nohang_adv|]; intros ts1 _.
        apply nohang_bind; [apply nohang_eat_sym|]; intros ts2 _.
        apply nohang_bind; [apply IHx|]; intros [e ts3] _.
        apply nohang_bind; [apply nohang_eat_sym|]; intros ts4 _.
        apply IHc.
      + intros ts; rewrite p_exponent_S.
        apply nohang_bind; [apply IHc|]; intros [n ts1] _; apply IHp.
      + intros nd ts; rewrite p_powers_S.
        destruct (is_sym N Power ts); [|apply nohang_ok].
        apply nohang_bind; [apply nohang_adv|]; intros ts1 _.
        apply nohang_bind; [apply IHe|]; intros [r ts2] _.
        pose proof (IHp (Bin BPow nd r) ts2) as H.
        revert H; destruct m; [auto|intros _; apply nohang_ok].
      + intros ts; rewrite p_term_S.
        apply nohang_bind; [apply IHe|]; intros [n ts1] _; apply IHf.
      + intros nd ts; rewrite p_factors_S.
        destruct (mul_of N ts); [|apply nohang_ok].
        apply nohang_bind; [apply nohang_adv|]; intros ts1 _.
        apply nohang_bind; [apply IHe|]; intros [r ts2] _; apply IHf.
      + intros ts; rewrite p_expr_S.
        apply nohang_bind; [apply IHt|]; intros [n ts1] _; apply IHs.
      + intros nd ts; rewrite p_summands_S.
        destruct (add_of N ts); [|apply nohang_ok].
        apply nohang_bind; [apply nohang_adv|]; intros ts1 _.
        apply nohang_bind; [apply IHt|]; intros [r ts2] _; apply IHs.
  Qed.

  Lemma expr_nohang m ts : nohang (expr_of N trunc m ts).
  Proof. apply expr_nohang_all. Qed.

  Lemma parse_tokens_nohang ts : parse_tokens N trunc ts <> Err Hang.
  Proof.
    assert (nohang (do (e, _) <- comp_expr N trunc ts; Ok e)) as H.
    { apply nohang_bind; [|intros []; intros; apply nohang_ok].
      apply nohang_bind; [apply expr_nohang|]; intros [l ts1] _.
      destruct (comp_of N ts1); [|apply nohang_ok].
      apply nohang_bind; [apply nohang_adv|]; intros ts2 _.
      apply nohang_bind; [apply expr_nohang|]; intros []; intros; apply nohang_ok. }
    destruct ts; [discriminate|exact H].
  Qed.
End Strings.
