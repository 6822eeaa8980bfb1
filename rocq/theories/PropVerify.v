(** Properties C42 and C61: verification, and parameters shared between models. *)
From Verif Require Import Base Syntax Lexer Parser Eval Semantics Factory Calib PropFile PropCalib Verify VerifySpec.

Section V.
  Variable E : Type.
  Variable outside : E -> bool.

  Fixpoint places (n : nat) (es : list E) : list nat :=
    match es with
    | [] => []
    | e :: es' => if outside e then n :: places (S n) es' else places (S n) es'
    end.
  Lemma places_In : forall es n i, In i (places n es) <->
    exists j e, i = n + j /\ nth_error es j = Some e /\ outside e = true.
  Proof.
    induction es as [|e es IH]; intros n i; cbn [places].
    - split; [intros []|intros ([|j] & e & _ & H & _); discriminate].
    - assert (T : In i (places (S n) es) <-> exists j e', i = n + S j /\ nth_error es j = Some e' /\ outside e' = true).
      { rewrite IH; split; intros (j & e' & -> & H); exists j, e'; split; auto; lia. }
      destruct (outside e) eqn:X; cbn [In]; rewrite T; split.
      + intros [<-|(j & e' & A & B)]; [exists 0, e; split; [lia|auto]|exists (S j), e'; auto].
      + intros ([|j] & e' & A & B & C); [left; lia|right; exists j, e'; auto].
      + intros (j & e' & A & B); exists (S j), e'; auto.
      + intros ([|j] & e' & A & B & C); [cbn in B; injection B as <-; congruence|exists j, e'; auto].
  Qed.
  Lemma places_NoDup : forall es n, NoDup (places n es).
  Proof.
    induction es as [|e es IH]; intros n; cbn [places]; [constructor|].
    destruct (outside e); [constructor; [|apply IH]|apply IH].
    intros H; apply places_In in H as (j & e' & A & _); lia.
  Qed.
  Lemma places_length : forall es n, List.length (places n es) = List.length (filter outside es).
  Proof. induction es as [|e es IH]; intros n; cbn [places filter]; [|destruct (outside e); cbn [List.length]; rewrite IH]; reflexivity. Qed.
  Lemma explosive_count es k : explosive outside es k <-> k = List.length (filter outside es).
  Proof.
    rewrite <- (places_length es 0); split.
    - intros (l & N & <- & I).
      assert (S : forall i, In i l <-> In i (places 0 es)).
      { intros i; rewrite I, places_In; split; [intros (e & H)|intros (j & e & -> & H)]; [exists i, e|exists e]; auto. }
      apply Nat.le_antisymm; apply NoDup_incl_length; auto using places_NoDup; intros i H; apply S; exact H.
    - intros ->; exists (places 0 es); split; [apply places_NoDup|split; [reflexivity|]].
      intros i; rewrite places_In; split; [intros (j & e & -> & H)|intros (e & H)]; [exists e|exists i, e]; auto.
  Qed.

  Lemma run_violates s b : snd (run_verification E outside s) = Some b <-> violates outside s b.
  Proof.
    unfold violates, run_verification; set (n := List.length (filter outside (eigen s))).
    assert (U : forall k, explosive outside (eigen s) k <-> k = n) by (intros k; apply explosive_count).
    destruct (n =? n_fwd s) eqn:A; [apply Nat.eqb_eq in A|apply Nat.eqb_neq in A]; cbn [negb].
    - destruct (rank22 s =? size22 s) eqn:B; [apply Nat.eqb_eq in B|apply Nat.eqb_neq in B]; cbn [negb snd]; split.
      + discriminate.
      + intros (k & K & [[C _]|(_ & C & _)]); [apply U in K; congruence|contradiction].
      + intros H; injection H as <-; exists n; split; [apply U; reflexivity|right; auto].
      + intros (k & K & [[C _]|(_ & _ & ->)]); [apply U in K; congruence|reflexivity].
    - cbn [snd]; split.
      + intros H; injection H as <-; exists n; split; [apply U; reflexivity|left; auto].
      + intros (k & K & [[_ ->]|(C & _)]); apply U in K; subst k; [reflexivity|contradiction].
  Qed.

  Lemma vrun_app a b s : vrun E outside (a ++ b) s = vrun E outside b (vrun E outside a s).
  Proof. apply fold_left_app. Qed.
  Lemma flag_kept os : forall s, ~ In Verify os -> is_verified s = None -> is_verified (vrun E outside os s) = None.
  Proof.
    induction os as [|o os IH]; intros s N H; [exact H|]; cbn [vrun fold_left]; apply IH; [intros X; apply N; right; exact X|].
    destruct o; cbn [vstep is_verified]; auto; elim N; left; reflexivity.
  Qed.
  Lemma verify_flag s : is_verified (fst (verify E outside s)) <> None.
  Proof.
    unfold verify, run_verification; destruct (is_verified s) eqn:A; cbn [fst]; [congruence|].
    destruct (negb _); [discriminate|destruct (negb _); discriminate].
  Qed.
  Lemma flag_history os s : is_verified s = None -> (is_verified (vrun E outside os s) = None <-> unverified os).
  Proof.
    intros H; split.
    - induction os as [|o os IH] using rev_ind; [exists [], []; cbn; auto|].
      rewrite vrun_app; cbn [vrun fold_left]; intros F; destruct o; cbn [vstep is_verified] in F.
      + elim (verify_flag _ F).
      + exists (os ++ [Updated es r z n]), []; rewrite app_nil_r; split; [reflexivity|split; [intros []|right; eauto 6]].
      + destruct (IH F) as (a & b & -> & N & A); exists a, (b ++ [Stopped n]); rewrite app_assoc; split; [reflexivity|split; [|exact A]].
        rewrite in_app_iff; intros [X|[X|[]]]; [auto|discriminate].
    - intros (a & b & -> & N & A); rewrite vrun_app; apply flag_kept; [exact N|].
      destruct A as [->|(a' & es & r & z & n & ->)]; [exact H|rewrite vrun_app; reflexivity].
  Qed.
End V.

(** C42, what holds.  A call of verify after any history of a model raises exactly when
    a Blanchard-Kahn condition fails and it is the first call on its state space; the
    exception names the condition, with the numbers compared.  Missing: later calls. *)
Theorem C42_first_call_partial :
  forall (E : Type) (outside : E -> bool) (s : statespace E) (os : list (vop E)) (b : bk),
    is_verified s = None ->
    (snd (verify E outside (vrun E outside os s)) = Some b <->
     unverified os /\ violates outside (vrun E outside os s) b).
Proof.
  intros E outside s os b H; rewrite <- (flag_history E outside os s H), <- run_violates; unfold verify.
  destruct (is_verified (vrun E outside os s)); cbn [snd]; split; try discriminate; [intros [X _]; discriminate|auto|intros [_ X]; exact X].
Qed.
Print Assumptions C42_first_call_partial.

(** C42, the flag.  The first call on a state space records whether the conditions hold:
    after it [is_verified] is true exactly when no condition fails, and the call is
    silent exactly then. *)
Theorem C42_flag :
  forall (E : Type) (outside : E -> bool) (s : statespace E) (os : list (vop E)),
    is_verified s = None -> unverified os ->
    let good := forall b, ~ violates outside (vrun E outside os s) b in
    let after := vrun E outside (os ++ [Verify]) s in
    is_verified after <> None /\ (is_verified after = Some true <-> good) /\
    (snd (verify E outside (vrun E outside os s)) = None <-> good).
Proof.
  intros E outside s os H U good after.
  apply (flag_history E outside os s H) in U.
  unfold after; rewrite vrun_app; cbn [vrun fold_left vstep]; fold (vrun E outside os s).
  set (t := vrun E outside os s) in *.
  split; [apply verify_flag|].
  assert (G : good <-> snd (run_verification E outside t) = None).
  { unfold good; split.
    - intros G; destruct (snd (run_verification E outside t)) eqn:X; [|reflexivity]; apply run_violates in X; elim (G _ X).
    - intros X b B; apply run_violates in B; congruence. }
  rewrite G; unfold verify; rewrite U; split; [|reflexivity].
  unfold run_verification; destruct (negb _); [cbn; split; discriminate|destruct (negb _); cbn; split; congruence].
Qed.
Print Assumptions C42_flag.

(** C42 is false: the second call on a model that fails says nothing. *)
Theorem C42_refuted :
  exists (s : statespace Z) (b : bk), let outside := fun z => (1 <? Z.abs z)%Z in
    is_verified s = None /\ violates outside (vrun Z outside [Verify] s) b /\
    snd (verify Z outside s) = Some b /\ snd (verify Z outside (vrun Z outside [Verify] s)) = None.
Proof.
  exists (StateSpace [2%Z; 0%Z] 1 1 None 2), (Order 1 2); cbv zeta; split; [reflexivity|split; [|split; reflexivity]].
  apply run_violates; reflexivity.
Qed.
Print Assumptions C42_refuted.

Section W.
  Variable V : Type.
  Variable O : ops V.
  Variable float_of : text -> option V.
  Variable trunc : V -> option Z.
  Notation wstep := (wstep V O float_of trunc).
  Notation wrun := (wrun V O float_of trunc).

  Lemma put_other i j p : forall l, i <> j -> nth_error (put_model V j p l) i = nth_error l i.
  Proof. revert i; induction j as [|j IH]; intros [|i] [|q l] N; cbn; try reflexivity; try congruence; apply IH; congruence. Qed.
  Lemma put_same i p : forall l q, nth_error l i = Some q -> nth_error (put_model V i p l) i = Some p.
  Proof. induction i as [|i IH]; intros [|q' l] q H; cbn in *; try discriminate; eauto. Qed.
  Lemma put_addr j a c : forall l c0, nth_error l j = Some (a, c0) -> map fst (put_model V j (a, c) l) = map fst l.
  Proof. induction j as [|j IH]; intros [|[a' q] l] c0 H; cbn in *; try discriminate; [injection H as -> _; reflexivity|f_equal; eauto]. Qed.

  (** Addresses of the models after a step: one more at the end, or the same. *)
  Lemma step_addr o w : exists l, map fst (models (wstep o w)) = map fst (models w) ++ l /\ incl l (made [o]).
  Proof.
    destruct o as [a|i x p]; cbn [Verify.wstep made flat_map app].
    - destruct (solve_calibration _ _ _ _ _); cbn [models].
      + rewrite map_app; exists [a]; split; [reflexivity|intros y H; exact H].
      + exists []; rewrite app_nil_r; split; [reflexivity|intros y []].
    - exists []; rewrite app_nil_r; split; [|intros y []].
      destruct (nth_error (models w) i) as [[a c]|] eqn:N; [|reflexivity].
      destruct (solve_calibration _ _ _ _ _); cbn [models]; [eapply put_addr; exact N|reflexivity].
  Qed.

  (** A step that is not on model i leaves it, and its dictionary if no other model has it. *)
  Lemma step_frame o w i a c : NoDup (map fst (models w)) -> nth_error (models w) i = Some (a, c) ->
    (forall x p, o <> AddParam i x p) -> nth_error (models (wstep o w)) i = Some (a, c) /\ dicts (wstep o w) a = dicts w a.
  Proof.
    intros N I H; destruct o as [b|j x p]; cbn [Verify.wstep].
    - destruct (solve_calibration _ _ _ _ _); cbn [models dicts]; [|auto].
      split; [|reflexivity]; rewrite nth_error_app1; [exact I|apply nth_error_Some; congruence].
    - destruct (nth_error (models w) j) as [[b k]|] eqn:J; [|auto].
      assert (D : i <> j) by (intros ->; apply (H x p); reflexivity).
      assert (A : a <> b).
      { intros ->; apply D; apply (proj1 (NoDup_nth_error (map fst (models w))) N).
        - rewrite map_length; apply nth_error_Some; congruence.
        - rewrite !nth_error_map, I, J; reflexivity. }
      assert (Q : put_dict V b (update x p (dicts w b)) (dicts w) a = dicts w a).
      { unfold put_dict; destruct (a =? b) eqn:X; [apply Nat.eqb_eq in X; contradiction|reflexivity]. }
      destruct (solve_calibration _ _ _ _ _); cbn [models dicts]; rewrite ?put_other by exact D; auto.
  Qed.

  Lemma run_frame os : forall w i a c, NoDup (map fst (models w) ++ made os) -> nth_error (models w) i = Some (a, c) ->
    (forall x p, ~ In (AddParam i x p) os) ->
    nth_error (models (wrun os w)) i = Some (a, c) /\ dicts (wrun os w) a = dicts w a.
  Proof.
    induction os as [|o os IH]; intros w i a c N I H; [split; [exact I|reflexivity]|].
    change (wrun (o :: os) w) with (wrun os (wstep o w)).
    assert (N0 : NoDup (map fst (models w))) by (clear -N; induction (map fst (models w)) as [|y l IHl]; [constructor|];
      cbn in N; inversion N; subst; constructor; [intros X; apply H1; apply in_or_app; auto|auto]).
    destruct (step_frame o w i a c N0 I) as [I1 D1]; [intros x p ->; apply (H x p); left; reflexivity|].
    destruct (IH (wstep o w) i a c) as [I2 D2]; [|exact I1|intros x p X; apply (H x p); right; exact X|split; [exact I2|congruence]].
    destruct (step_addr o w) as (l & E & L); rewrite E.
    change (made (o :: os)) with (made [o] ++ made os) in N || (unfold made in N; cbn [flat_map] in N).
    destruct o as [b|j x p]; cbn [made flat_map app] in *.
    - destruct (list_eq_dec Nat.eq_dec l []) as [->|Z].
      + rewrite app_nil_r; apply NoDup_remove_1 in N; exact N.
      + assert (l = [b]) as ->; [|rewrite <- app_assoc; exact N].
        cbn [Verify.wstep] in E; destruct (solve_calibration _ _ _ _ _); cbn [models] in E; [rewrite map_app in E|rewrite <- (app_nil_r (map fst (models w))) in E at 1]; apply app_inv_head in E; [symmetry; exact E|congruence].
    - assert (l = []) as ->; [destruct l as [|y l]; [reflexivity|elim (L y); left; reflexivity]|rewrite app_nil_r; exact N].
  Qed.
End W.

(** C61, what holds.  When every model is made with a dictionary of its own, calls on
    other models change neither the parameters of a model nor its dictionary. *)
Theorem C61_own_dictionaries_partial :
  forall (V : Type) (O : ops V) (float_of : text -> option V) (trunc : V -> option Z)
    (w : world V) (os : list (wop V)) (i a : nat) (c : list (string * V)),
    NoDup (map fst (models w) ++ made os) -> nth_error (models w) i = Some (a, c) ->
    (forall x p, ~ In (AddParam i x p) os) ->
    shown V (wrun V O float_of trunc os w) i = Some c /\ dicts (wrun V O float_of trunc os w) a = dicts w a.
Proof.
  intros V O fo tr w os i a c N I H; destruct (run_frame V O fo tr os w i a c N I H) as [A B].
  split; [unfold shown; rewrite A; reflexivity|exact B].
Qed.
Print Assumptions C61_own_dictionaries_partial.

Definition empty_world : world (option Z) := World (fun _ => []) [].
Definition oworld := wrun (option Z) OZ odec (fun v => v).

(** C61 is false for models made without [params]: a parameter added to the first one is
    a parameter of a model made afterwards, and a parameter of the first one is replaced
    by a call on the second when the first is next solved. *)
Theorem C61_refuted :
  shown _ (oworld [Make 0; AddParam 0 "a"%string (onum 1); Make 0] empty_world) 1 = Some [("a"%string, Some 1%Z)] /\
  shown _ (oworld [Make 0; Make 0; AddParam 0 "a"%string (onum 1); AddParam 1 "a"%string (onum 2); AddParam 0 "b"%string (onum 3)] empty_world) 0
    = Some [("a"%string, Some 2%Z); ("b"%string, Some 3%Z)].
Proof. split; vm_compute; reflexivity. Qed.
Print Assumptions C61_refuted.

(** Even an addition that fails does: the circular definition stays in the shared
    dictionary, and no model can be made without [params] any more. *)
Theorem C61_failure_refuted :
  shown _ (oworld [Make 0; AddParam 0 "a"%string (otext "a"); Make 0] empty_world) 0 = Some [] /\
  shown _ (oworld [Make 0; AddParam 0 "a"%string (otext "a"); Make 0] empty_world) 1 = None /\
  shown _ (oworld [Make 0; Make 0] empty_world) 1 = Some [].
Proof. repeat split; vm_compute; reflexivity. Qed.
Print Assumptions C61_failure_refuted.

(** The hypotheses of the theorems above are met. *)
Example C42_nonvacuous :
  let outside := fun z => (1 <? Z.abs z)%Z in
  let os := [Verify; Updated [3%Z; 0%Z; 5%Z] 1 2 2; Stopped 2] in
  snd (verify Z outside (vrun Z outside os (StateSpace [2%Z] 1 1 None 1))) = Some Rank /\ unverified os.
Proof.
  cbv zeta; split; [vm_compute; reflexivity|].
  exists [Verify; Updated [3%Z; 0%Z; 5%Z] 1 2 2], [Stopped 2]; split; [reflexivity|split; [intros [X|[]]; discriminate|]].
  right; exists [Verify], [3%Z; 0%Z; 5%Z], 1, 2, 2; reflexivity.
Qed.
Example C61_nonvacuous :
  let w := oworld [Make 1; AddParam 0 "a"%string (onum 1)] empty_world in
  let os := [Make 2; AddParam 1 "a"%string (onum 7); Make 3] in
  shown _ w 0 = Some [("a"%string, Some 1%Z)] /\ NoDup (map fst (models w) ++ made os) /\
  shown _ (oworld os w) 0 = Some [("a"%string, Some 1%Z)] /\ shown _ (oworld os w) 1 = Some [("a"%string, Some 7%Z)].
Proof.
  cbv zeta; split; [vm_compute; reflexivity|split; [|split; vm_compute; reflexivity]].
  vm_compute; repeat constructor; cbn; intuition discriminate.
Qed.
