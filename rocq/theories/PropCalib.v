(** Properties C18 to C22: parameter values. *)
From Verif Require Import Base Syntax Lexer Parser Eval EvalSpec EvalProofs ModFileSpec Semantics SemanticsSpec
  Factory FactorySpec FactoryProofs PropFile Calib CalibSpec CalibProofs FileCalibProofs.
From Coq Require Import Relations Permutation.

(** The concrete instance of the examples (PropFile.v): integers, or None. *)
Definition osolve := solve_calibration (option Z) OZ odec (fun v => v).
Definition oset := set_param (option Z) OZ odec (fun v => v).
Definition onum (z : Z) : pdef (option Z) := DNum (Some z).
Definition otext (s : string) : pdef (option Z) := DText (chars s).

(** C18. A model read from a file has the parameter values obtained by executing the
    file's assignments in order, provided they are [settled] (CalibSpec.v): the last
    definition of every parameter uses only parameters, assigned before and not after
    it.  Missing: the other files, for which the claim is false (C18_refuted). *)
Theorem C18_file_parameters_partial :
  forall (V : Type) (O : ops V) (two : V) (float_of : text -> option V) (trunc : V -> option Z)
    (f : modfile V) (o : outline V),
    (forall v, o_isnone O v = true -> v = o_none O) ->
    create_outline V O two f = Ok o -> settled V f ->
    exists rho c, exec V O (nothing V O) (m_params f) = Ok rho /\
      solve_calibration V O float_of trunc (outline_defs o) = Ok c /\
      (forall x, In (x, "parameters"%string) (m_decls f) -> lookup x c = Some (rho x)) /\
      (forall x, In x (keys c) <-> In (x, "parameters"%string) (m_decls f)).
Proof.
  intros V O two fo tr f o Hn H S; destruct (outline_params V O two Hn f o H) as (_ & _ & _ & rho & E).
  destruct (file_parameters V O two Hn fo tr f o rho H S E) as (c & A & B & C); exists rho, c; auto.
Qed.
Print Assumptions C18_file_parameters_partial.

Definition oparams (s : string) : res (list (string * option Z)) := do o <- oread s; osolve (outline_defs o).
Definition oexec (s : string) (x : string) : res (option Z) :=
  do f <- ofile s; do rho <- exec (option Z) OZ (nothing (option Z) OZ) (m_params f); Ok (rho x).

(** Files for which it is false: a parameter reassigned after it was used; a parameter
    updated in terms of itself; a parameter computed from a helper variable. *)
Theorem C18_refuted :
  (exists c, oparams "var x; parameters a b; a = 1; b = a; a = 2; model; x = a; end; shocks; end;" = Ok c /\
     lookup "b" c = Some (Some 2%Z) /\
     oexec "var x; parameters a b; a = 1; b = a; a = 2; model; x = a; end; shocks; end;" "b" = Ok (Some 1%Z)) /\
  (oparams "var x; parameters a; a = 1; a = a + 1; model; x = a; end; shocks; end;" = Err (CalibErr 1) /\
   oexec "var x; parameters a; a = 1; a = a + 1; model; x = a; end; shocks; end;" "a" = Ok (Some 2%Z)) /\
  (oparams "var x; parameters a; h = 1; a = h + 1; model; x = a; end; shocks; end;" = Err KeyErr /\
   oexec "var x; parameters a; h = 1; a = h + 1; model; x = a; end; shocks; end;" "a" = Ok (Some 2%Z)).
Proof.
  split; [eexists; split; [vm_compute; reflexivity|]; split; vm_compute; reflexivity|].
  split; split; vm_compute; reflexivity.
Qed.
Print Assumptions C18_refuted.

Ltac invert_occ :=
  repeat match goal with
  | H : occurs _ _ _ |- _ => inversion H; subst; clear H
  | H : occurs_t _ _ _ _ |- _ => inversion H; subst; clear H
  end.
Definition settled_text : string :=
  "var x; parameters a b c; a = 9; h = 4; a = 1; b = a + 1; c = a*b; model; x = a; end; shocks; end;"%string.
Example C18_nonvacuous : exists f o c, ofile settled_text = Ok f /\ settled _ f /\
  create_outline _ OZ (Some 2%Z) f = Ok o /\ osolve (outline_defs o) = Ok c /\ lookup "c" c = Some (Some 2%Z).
Proof.
  do 3 eexists; split; [vm_compute; reflexivity|]; split; [|split; [vm_compute; reflexivity|split; vm_compute; reflexivity]].
  split.
  - intros x H; cbn [m_decls m_params] in *; cbn; cbn in H.
    repeat (destruct H as [H|H]; [injection H as <-; try discriminate; tauto|]); contradiction.
  - intros pre x e post E Hp Hx; cbn [m_params m_decls] in *.
    repeat (destruct pre as [|? pre]; cbn [app] in E; [injection E as <- <- <-|injection E as <- E]).
    6: { destruct pre; discriminate. }
    all: cbn in Hp; try (exfalso; destruct Hp as [Hp|[Hp|[Hp|[Hp|[]]]]]; discriminate).
    + exfalso; apply Hx; cbn; tauto.
    + split; [exact I|]; split; [intros y k G; inversion G|intros y G; inversion G].
    + split; [cbn; tauto|]; split; [intros y k G; invert_occ|].
      intros y G; invert_occ; cbn; repeat split; try tauto; try discriminate; intros [Q|[]]; discriminate.
    + split; [cbn; tauto|]; split; [intros y k G; invert_occ|].
      intros y G; invert_occ; cbn; repeat split; try tauto; discriminate.
Qed.

(** C19. A calibration [c] is what solving the definitions [d] gives exactly when the
    definitions are arithmetic over the parameters, not circular, and every parameter
    has in [c] the value of its definition at [c] ([satisfies], CalibSpec.v). *)
Theorem C19_solved_exactly :
  forall (V : Type) (O : ops V) (float_of : text -> option V) (trunc : V -> option Z)
    (d : list (string * pdef V)) (c : list (string * V)),
    NoDup (keys d) ->
    (solve_calibration V O float_of trunc d = Ok c <->
     over_params V float_of trunc d /\ ~ circular V float_of trunc d /\ satisfies V O float_of trunc c d).
Proof. exact solve_iff. Qed.
Print Assumptions C19_solved_exactly.

Theorem C19_solved_satisfies :
  forall (V : Type) (O : ops V) (float_of : text -> option V) (trunc : V -> option Z)
    (d : list (string * pdef V)) (c : list (string * V)),
    NoDup (keys d) -> solve_calibration V O float_of trunc d = Ok c ->
    keys c = keys d /\
    forall x p, In (x, p) d -> exists v e, lookup x c = Some v /\ means V float_of trunc p e /\ evaluate V O (SDict c) e = Ok v.
Proof. intros V O fo tr d c Hnd H; exact (solve_satisfies V O fo tr d c Hnd H). Qed.
Print Assumptions C19_solved_satisfies.

Definition sample_defs : list (string * pdef (option Z)) :=
  [("d"%string, otext "b*c + a"); ("c"%string, DTree (Bin BAdd (Var "b") (Num (Some 1%Z)))); ("b"%string, otext "2*a"); ("a"%string, onum 3%Z)].
Example C19_nonvacuous :
  NoDup (keys sample_defs) /\
  osolve sample_defs = Ok [("d"%string, Some 45%Z); ("c"%string, Some 7%Z); ("b"%string, Some 6%Z); ("a"%string, Some 3%Z)].
Proof.
  split; [|vm_compute; reflexivity].
  unfold sample_defs, keys; cbn [map fst]; repeat (constructor; [cbn; intuition discriminate|]); constructor.
Qed.

(** C20. *)
Theorem C20_rejected_iff_circular :
  forall (V : Type) (O : ops V) (float_of : text -> option V) (trunc : V -> option Z) (d : list (string * pdef V)),
    NoDup (keys d) -> no_calib V O -> over_params V float_of trunc d ->
    ((exists n, solve_calibration V O float_of trunc d = Err (CalibErr n)) <-> circular V float_of trunc d).
Proof. exact calib_error_iff. Qed.
Print Assumptions C20_rejected_iff_circular.

Definition circular_defs : list (string * pdef (option Z)) :=
  [("a"%string, otext "b"); ("b"%string, otext "c + d"); ("c"%string, otext "a"); ("d"%string, onum 3%Z)].
Lemma oz_no_calib : no_calib (option Z) OZ.
Proof.
  split; [|split; [|split]]; cbn.
  - intros o [v|] [w|] n; cbn; discriminate.
  - intros o [v|] n; discriminate.
  - intros o [v|] [w|] n; cbn; discriminate.
  - intros f [v|] n; discriminate.
Qed.
Example C20_nonvacuous :
  NoDup (keys circular_defs) /\ over_params _ odec (fun v => v) circular_defs /\ circular _ odec (fun v => v) circular_defs /\
  osolve circular_defs = Err (CalibErr 3).
Proof.
  assert (Hnd : NoDup (keys circular_defs)) by (unfold circular_defs, keys; cbn [map fst]; repeat (constructor; [cbn; intuition discriminate|]); constructor).
  assert (Hov : over_params _ odec (fun v => v) circular_defs).
  { intros x p H; cbn in H; repeat (destruct H as [H|H]; [injection H as <- <-; eexists; split; [vm_compute; reflexivity|]|]); [| | | |contradiction].
    - split; [exact I|]; split; [intros y k G; inversion G|intros y G; inversion G; cbn; tauto].
    - split; [cbn; tauto|]; split; [intros y k G; invert_occ|intros y G; invert_occ; cbn; tauto].
    - split; [exact I|]; split; [intros y k G; inversion G|intros y G; inversion G; cbn; tauto].
    - split; [exact I|]; split; [intros y k G; inversion G|intros y G; inversion G]. }
  assert (E : osolve circular_defs = Err (CalibErr 3)) by (vm_compute; reflexivity).
  split; [exact Hnd|]; split; [exact Hov|]; split; [|exact E].
  apply (C20_rejected_iff_circular _ OZ odec (fun v => v) _ Hnd oz_no_calib Hov); exists 3; exact E.
Qed.

(** C21. *)
Theorem C21_order_irrelevant :
  forall (V : Type) (O : ops V) (float_of : text -> option V) (trunc : V -> option Z)
    (d d' : list (string * pdef V)) (c : list (string * V)),
    NoDup (keys d) -> Permutation d d' -> solve_calibration V O float_of trunc d = Ok c ->
    exists c', solve_calibration V O float_of trunc d' = Ok c' /\ forall x, lookup x c' = lookup x c.
Proof. exact solve_perm. Qed.
Print Assumptions C21_order_irrelevant.

Example C21_nonvacuous : Permutation sample_defs (rev sample_defs) /\ osolve (rev sample_defs) <> osolve sample_defs /\
  exists c, osolve (rev sample_defs) = Ok c /\ lookup "d" c = Some (Some 45%Z).
Proof.
  split; [apply Permutation_rev|]; split; [vm_compute; discriminate|eexists; split; vm_compute; reflexivity].
Qed.

(** C22. In every calibration a program can come to have: an assignment makes its
    definition one of those behind the calibration ([root_defs]); when it succeeds all
    definitions hold afterwards; it succeeds exactly when the definitions can be
    solved; when it fails the values are as before.  Missing: a failed assignment does
    leave its definition behind (C22_refuted). *)
Theorem C22_assignment_partial :
  forall (V : Type) (O : ops V) (float_of : text -> option V) (trunc : V -> option Z)
    (k k' : calibration V) (x : string) (p : pdef V) (er : option exn),
    reachable V O float_of trunc k -> set_param V O float_of trunc x p k = (k', er) ->
    root_defs V k' = update x p (root_defs V k) /\
    (er = None -> satisfies V O float_of trunc (solved V k') (update x p (root_defs V k))) /\
    (er = None <-> exists c, solve_calibration V O float_of trunc (update x p (root_defs V k)) = Ok c) /\
    (er <> None -> solved V k' = solved V k).
Proof.
  intros V O fo tr k k' x p er R H; apply reachable_wf in R; destruct (set_param_spec V O fo tr x p k k' er R H) as (_ & A & B & C & D & E).
  split; [exact A|]; split; [intros G; rewrite <- A; exact (B G)|]; split; [|exact C].
  destruct (solve_calibration V O fo tr (update x p (root_defs V k))) as [c|e] eqn:S.
  - destruct (D c eq_refl) as [-> _]; split; eauto.
  - rewrite (E e eq_refl); split; [discriminate|intros (c & G); discriminate].
Qed.
Print Assumptions C22_assignment_partial.

(** Over a history of assignments, some of which failed: the values are those of the
    last success. *)
Theorem C22_values_of_last_success_partial :
  forall (V : Type) (O : ops V) (float_of : text -> option V) (trunc : V -> option Z)
    (k k' : calibration V) (l1 l2 : list (string * pdef V * bool)) (x : string) (p : pdef V),
    reachable V O float_of trunc k ->
    history V O float_of trunc k (l1 ++ (x, p, true) :: l2) k' -> Forall (fun a => snd a = false) l2 ->
    satisfies V O float_of trunc (solved V k')
      (fold_left (fun d a => update (fst (fst a)) (snd (fst a)) d) (l1 ++ [(x, p, true)]) (root_defs V k)).
Proof.
  intros V O fo tr k k' l1 l2 x p R H F; apply reachable_wf in R.
  apply history_app in H as (k1 & H1 & H2); destruct (history_spec V O fo tr _ _ _ R H1) as [W1 E1].
  inversion H2 as [|? ? ? k2 ? ? Hs Hh|]; subst; destruct (set_param_spec V O fo tr _ _ _ _ _ W1 Hs) as (W2 & E2 & S2 & _).
  destruct (history_failures V O fo tr _ _ _ W2 Hh F) as [_ ->].
  rewrite fold_left_app, <- E1; cbn [fold_left fst snd]; rewrite <- E2; exact (S2 eq_refl).
Qed.
Print Assumptions C22_values_of_last_success_partial.

(** Deleting a parameter takes it away, together with its definition, and changes no
    other value; a deletion that fails raises KeyError and changes no value.  Nothing is
    solved again: what was computed from the parameter keeps its value. *)
Theorem C22_deletion :
  forall (V : Type) (O : ops V) (float_of : text -> option V) (trunc : V -> option Z)
    (k k' : calibration V) (x : string) (er : option exn),
    reachable V O float_of trunc k -> del_param V x k = (k', er) ->
    (er = None ->
       (exists v, get_param V x k = Ok v) /\ get_param V x k' = Err KeyErr /\
       root_defs V k' = delete x (root_defs V k) /\ lookup x (root_defs V k') = None) /\
    (er <> None -> er = Some KeyErr /\ forall y, get_param V y k' = get_param V y k) /\
    forall y, y <> x -> get_param V y k' = get_param V y k.
Proof.
  intros V O fo tr k k' x er R H; apply reachable_wf in R; destruct (del_param_spec V x k k' er R H) as [A B].
  pose proof (wf_solved V k R) as N; pose proof (wf_root V k R) as N'; unfold get_param.
  split; [|split].
  - intros E; destruct (A E) as (A1 & A2 & A3 & A4); destruct (lookup_key x _ A2) as (v & Lv); rewrite Lv; split; [eauto|].
    rewrite A3, A4, !lookup_delete by assumption; rewrite String.eqb_refl; auto.
  - intros E; destruct (B E) as [B1 B2]; rewrite B2; auto.
  - intros y Ny; destruct er as [e|].
    + destruct B as [_ B]; [discriminate|]; rewrite B; reflexivity.
    + destruct (A eq_refl) as (_ & _ & _ & A4); rewrite A4, lookup_delete by assumption.
      destruct (String.eqb_spec y x); [contradiction|reflexivity].
Qed.
Print Assumptions C22_deletion.

(** A failed assignment changes later ones.  (1) [a := "b"] fails since there is no
    [b]; then [b := 1] also defines [a].  (2) After the failed [a := "a"], setting the
    unrelated parameter [c] fails, and would not have otherwise. *)
Definition start : calibration (option Z) := Cal (Plain [("c"%string, onum 5%Z)]) [("c"%string, Some 5%Z)].
Theorem C22_refuted :
  reachable _ OZ odec (fun v => v) start /\
  (let (k1, e1) := oset "a" (otext "b") start in
   let (k2, e2) := oset "b" (onum 1%Z) k1 in
   let (k2', e2') := oset "b" (onum 1%Z) start in
   e1 = Some KeyErr /\ e2 = None /\ get_param _ "a" k2 = Ok (Some 1%Z) /\
   e2' = None /\ get_param _ "a" k2' = Err KeyErr) /\
  (let (k1, e1) := oset "a" (otext "a") start in
   let (k2, e2) := oset "c" (onum 6%Z) k1 in
   let (k2', e2') := oset "c" (onum 6%Z) start in
   e1 = Some (CalibErr 1) /\ e2 = Some (CalibErr 1) /\ get_param _ "c" k2 = Ok (Some 5%Z) /\
   e2' = None /\ get_param _ "c" k2' = Ok (Some 6%Z)).
Proof.
  split; [eapply R_new with (d := [("c"%string, onum 5%Z)]); [repeat constructor; cbn; tauto|vm_compute; reflexivity]|].
  split; vm_compute; repeat split; reflexivity.
Qed.
Print Assumptions C22_refuted.

Example C22_nonvacuous :
  let k := Cal (Plain sample_defs) [("d"%string, Some 45%Z); ("c"%string, Some 7%Z); ("b"%string, Some 6%Z); ("a"%string, Some 3%Z)] in
  reachable _ OZ odec (fun v => v) k /\
  (let (k', er) := oset "a" (onum 1%Z) k in er = None /\ get_param _ "d" k' = Ok (Some 7%Z)) /\
  (let (k', er) := oset "a" (otext "d") k in er = Some (CalibErr 4) /\ get_param _ "d" k' = Ok (Some 45%Z)).
Proof.
  split; [eapply R_new with (d := sample_defs); [apply C19_nonvacuous|vm_compute; reflexivity]|].
  split; vm_compute; repeat split; reflexivity.
Qed.

(** [b] is twice [a]; without [a] it keeps its value, and the next assignment fails. *)
Example C22_deletion_nonvacuous :
  let k := Cal (Plain [("a"%string, onum 3%Z); ("b"%string, otext "2*a")]) [("a"%string, Some 3%Z); ("b"%string, Some 6%Z)] in
  reachable _ OZ odec (fun v => v) k /\
  (let (k', er) := del_param _ "a" k in er = None /\ get_param _ "b" k' = Ok (Some 6%Z) /\
   snd (oset "c" (onum 1%Z) k') = Some KeyErr) /\
  snd (del_param _ "z" k) = Some KeyErr.
Proof.
  split; [eapply R_new with (d := [("a"%string, onum 3%Z); ("b"%string, otext "2*a")]); [repeat constructor; cbn; intuition discriminate|vm_compute; reflexivity]|].
  split; vm_compute; repeat split; reflexivity.
Qed.
