(** Property C32: the texts and the trees of a model's equations. *)
From Verif Require Import Base Syntax Lexer Parser ExprList ExprListSpec ExprListProofs PropParser.

(** C32. Whatever is done to a collection made from a list of equations, there are as
    many texts as trees, and a text that is there is that of the tree in the same
    place (the text of an equation given as a tree is empty).  Missing: collections
    made from an iterator, see the refutation. *)
Theorem C32_in_step_partial :
  forall (V : Type) (parse_text : text -> res (ast V)) (gs : list (given V)) (os : list (eop V)) (x : mexprs V),
    new_exprs V parse_text false gs = Ok x ->
    let y := eops_run V parse_text os x in
    List.length (texts y) = List.length (trees y) /\
    forall i t e, nth_error (texts y) i = Some t -> nth_error (trees y) i = Some e ->
      t = [] \/ parse_text t = Ok e.
Proof.
  intros V parse_text gs os x Hx y.
  assert (H : exists l, holds V parse_text y l).
  { unfold y; clear y; revert x Hx; induction os as [|o os IH] using rev_ind; intros x Hx.
    - cbn [eops_run fold_left].
      unfold new_exprs in Hx; apply bind_ok in Hx as (ts & Hts & Hx); injection Hx as <-.
      apply mapM_ok in Hts; induction Hts as [|g e gs ts Hg _ IH].
      + exists []; split; [reflexivity|]; split; [reflexivity|intros q t []].
      + destruct IH as (l & H1 & H2 & H3); cbn [trees texts] in *.
        destruct (parse_means V parse_text g e Hg) as (q & Hq & <- & Hs).
        exists (q :: l); split; [cbn [map]; rewrite <- H1; reflexivity|].
        split; [cbn [map]; rewrite <- H2, <- Hs; reflexivity|].
        intros q' t [<-|Hin]; [apply (means_good V parse_text g); exact Hq|eauto].
    - unfold eops_run; rewrite fold_left_app; cbn [fold_left].
      destruct (IH x Hx) as (l & Hl).
      change (fold_left (fun x o => fst (eop_run V parse_text o x)) os x) with (eops_run V parse_text os x).
      destruct (eop_run V parse_text o (eops_run V parse_text os x)) as [x' r] eqn:E; cbn [fst].
      apply (run_spec V parse_text o _ l) in E; [|exact Hl].
      destruct r as [u|er].
      + destruct E as (l' & _ & E); eauto.
      + destruct E as [->|(_ & _ & l' & _ & _ & E)]; eauto. }
  destruct H as (l & H1 & H2 & H3); split.
  - rewrite H1, H2, !map_length; reflexivity.
  - intros i t e; rewrite H1, H2, !nth_error_map.
    destruct (nth_error l i) as [q|] eqn:E; cbn [option_map]; [|discriminate].
    intros Ht He; injection Ht as <-; injection He as <-.
    destruct (source V q) as [t|] eqn:Es; [right|left; reflexivity].
    apply (H3 q t); [eapply nth_error_In; exact E|exact Es].
Qed.
Print Assumptions C32_in_step_partial.

(** Each operation treats the collection as a list of equations: see [effect] in
    ExprListSpec.v.  One that fails changes nothing, except that [extend] keeps the
    equations before the one that fails. *)
Theorem C32_operations :
  forall (V : Type) (parse_text : text -> res (ast V)) (o : eop V) (x x' : mexprs V) (l : list (equation V)) (r : res unit),
    holds V parse_text x l -> eop_run V parse_text o x = (x', r) ->
    match r with
    | Ok _ => exists l', effect V parse_text o l l' /\ holds V parse_text x' l'
    | Err _ => x' = x \/
        exists gs1 gs2 l', o = EExtend (gs1 ++ gs2) /\ effect V parse_text (EExtend gs1) l l' /\ holds V parse_text x' l'
    end.
Proof. intros; eapply run_spec; eassumption. Qed.
Print Assumptions C32_operations.

(** A collection cannot be made exactly when one of the equations cannot be read, and the
    error is that of the first such: the parser's for a text, TypeError for anything that is
    neither a text nor a tree. *)
Theorem C32_refused :
  forall (V : Type) (parse_text : text -> res (ast V)) (oneshot : bool) (gs : list (given V)) er,
    new_exprs V parse_text oneshot gs = Err er <->
    exists gs1 g gs2, gs = gs1 ++ g :: gs2 /\ (forall g', In g' gs1 -> exists q, means V parse_text g' q) /\
      ((exists t, g = GText t /\ parse_text t = Err er) \/ g = GBad /\ er = TypeErr).
Proof.
  intros V parse_text oneshot gs er.
  assert (B : forall g e, parse_given V parse_text g = Err e <-> (exists t, g = GText t /\ parse_text t = Err e) \/ g = GBad /\ e = TypeErr).
  { intros g e; destruct g as [t|a|]; cbn [parse_given]; split; intros H.
    - left; exists t; split; [reflexivity|exact H].
    - destruct H as [(t' & E & H)|[E _]]; [injection E as ->; exact H|discriminate E].
    - discriminate H.
    - destruct H as [(t' & E & H)|[E _]]; discriminate E.
    - right; injection H as <-; split; reflexivity.
    - destruct H as [(t' & E & H)|[_ ->]]; [discriminate E|reflexivity]. }
  assert (G : forall g, (exists q, means V parse_text g q) <-> exists e, parse_given V parse_text g = Ok e).
  { intros g; split; [intros (q & H); exists (tree V q); apply means_parse; exact H|intros (e & H)].
    destruct (parse_means V parse_text g e H) as (q & Hq & _); exists q; exact Hq. }
  transitivity (mapM (parse_given V parse_text) gs = Err er).
  { unfold new_exprs; destruct (mapM (parse_given V parse_text) gs); cbn [bind]; split; intros H; [discriminate H|discriminate H|injection H as ->; reflexivity|injection H as ->; reflexivity]. }
  induction gs as [|g gs IH]; cbn [mapM].
  - split; [discriminate|]; intros ([|? ?] & ? & ? & E & _); discriminate E.
  - destruct (parse_given V parse_text g) as [a|e'] eqn:Eg; cbn [bind].
    + split.
      * intros H; destruct (mapM _ gs) as [as_|e'] eqn:Em; [discriminate H|]; cbn [bind] in H; injection H as ->.
        destruct (proj1 IH eq_refl) as (g1 & g0 & g2 & -> & H1 & H2); exists (g :: g1), g0, g2; split; [reflexivity|]; split; [|exact H2].
        intros g' [<-|Hg]; [apply G; exists a; exact Eg|apply H1, Hg].
      * intros ([|x g1] & g0 & g2 & E & H1 & H2); cbn [app] in E; injection E as -> ->; [apply B in H2; congruence|].
        rewrite (proj2 IH); [reflexivity|]; exists g1, g0, g2; split; [reflexivity|]; split; [|exact H2]; intros g' Hg; apply H1; right; exact Hg.
    + split.
      * intros H; injection H as ->; exists [], g, gs; split; [reflexivity|]; split; [intros ? []|apply B, Eg].
      * intros ([|x g1] & g0 & g2 & E & H1 & H2); cbn [app] in E; injection E as -> ->; [apply B in H2; congruence|].
        destruct (proj1 (G x) (H1 x (or_introl eq_refl))) as (e2 & He); congruence.
Qed.
Print Assumptions C32_refused.

(** The full claim is false: a collection made from an iterator has trees but no
    texts, and a text added later stands in the place of another tree. *)
Definition zequation (s : string) := parse_equation Z dec_of Some 0%Z (chars s).
Definition ztext (s : string) : given Z := GText (chars s).
Definition zparse := parse_equation Z dec_of Some 0%Z.
Theorem C32_iterator_refuted :
  exists x, new_exprs Z zparse true [ztext "x = y"; ztext "y = 2*x"] = Ok x /\
    let y := eops_run Z zparse [EAppend (ztext "z = 3")] x in
    nth_error (texts y) 0 = Some (chars "z = 3") /\ nth_error (trees y) 0 = Some (Bin BSub (Var "x"%string) (Var "y"%string)) /\
    zparse (chars "z = 3") <> Ok (Bin BSub (Var "x"%string) (Var "y"%string)) /\
    List.length (texts y) <> List.length (trees y).
Proof.
  eexists; split; [vm_compute; reflexivity|]; cbv zeta.
  split; [vm_compute; reflexivity|]; split; [vm_compute; reflexivity|]; split; vm_compute; discriminate.
Qed.
Print Assumptions C32_iterator_refuted.

Example C32_nonvacuous :
  exists x, new_exprs Z zparse false [ztext "x = y"; GTree (Var "w"%string); ztext "y = 2*x(-1)"] = Ok x /\
    let y := eops_run Z zparse [ESet (-3) (ztext "x = 7"); EDel 1; EAppend (ztext "bad ="); EInsert 1 (ztext "u"); EPop 9] x in
    texts y = [chars "x = 7"; chars "u"; chars "y = 2*x(-1)"] /\
    trees y = [Bin BSub (Var "x"%string) (Num 7%Z); Bin BSub (Var "u"%string) (Num 0%Z);
               Bin BSub (Var "y"%string) (Bin BMul (Num 2%Z) (PVar "x"%string (-1)))]%Z.
Proof. eexists; split; [vm_compute; reflexivity|]; cbv zeta; split; vm_compute; reflexivity. Qed.
(** The second equation is the first that cannot be read, for all that comes after it. *)
Example C32_refused_nonvacuous :
  exists er, zparse (chars "bad =") = Err er /\ er <> TypeErr /\
    new_exprs Z zparse false [ztext "x = y"; ztext "bad ="; GBad] = Err er /\
    new_exprs Z zparse false [ztext "x = y"; GBad; ztext "bad ="] = Err TypeErr.
Proof. eexists; split; [vm_compute; reflexivity|]; split; [discriminate|]; split; vm_compute; reflexivity. Qed.
