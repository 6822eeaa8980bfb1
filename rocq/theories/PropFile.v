(** Properties C13 to C17, and C23 for outlines: checking a model file and building its
    outline. *)
From Verif Require Import Base Syntax Lexer LexerSpec Parser ParserSpec ParserProofs ModFileSpec
  ModFileProofs ModFileProofs2 ModFileProofs3 PropParser Eval EvalSpec EvalProofs PropEval Semantics
  SemanticsSpec SemanticsProofs Factory FactorySpec FactoryProofs.

(** Numbers that may be missing (the None of the program), with total arithmetic:
    a concrete instance for the examples. *)
Definition lift2 (g : Z -> Z -> Z) (a b : option Z) : res (option Z) :=
  match a, b with Some x, Some y => Ok (Some (g x y)) | _, _ => Err TypeErr end.
Definition OZ : ops (option Z) := Ops (option Z) None (fun v => match v with None => true | _ => false end)
  (fun o => lift2 (match o with BAdd => Z.add | BSub => Z.sub | BMul => Z.mul | BDiv => Z.div | BPow => Z.pow end))
  (fun o a => match a with Some x => Ok (Some (match o with UPos => x | UNeg => - x end)%Z) | None => Err TypeErr end)
  (fun o => lift2 (fun a b => (match o with
     | CLt => if a <? b then 1 else 0 | CLe => if a <=? b then 1 else 0
     | CGt => if b <? a then 1 else 0 | CGe => if b <=? a then 1 else 0
     | CEq => if a =? b then 1 else 0 end)%Z))
  (fun f a => match a with Some x => Ok (Some (if String.eqb f "abs" then Z.abs x else x)) | None => Err TypeErr end).
Definition odec (w : text) : option (option Z) := option_map Some (dec_of w).
Definition ofile (s : string) := parse_file (option Z) odec (fun v => v) (Some 0%Z) (chars s).
Definition ocheck (s : string) : res unit := do f <- ofile s; verify (option Z) f.
Definition oread (s : string) := read_model (option Z) OZ (Some 2%Z) odec (fun v => v) (Some 0%Z) (chars s).

(** A file used below. *)
Definition sample : string :=
  "var c k; varexo e u; parameters b d; b = 3; h = b + 1; d = h*b; model; # m = b*d; c = m*k(-1) + e; k - c(+1)*b = u; end; initval; c = d; k = 2*d; c = 5; end; endval; c = 1; end; shocks; var e; stderr b; var u = 4; corr e, u = h; end;"%string.
Definition sample_file : modfile (option Z) := Eval vm_compute in
  match ofile sample with Ok f => f | Err _ => ModFile [] [] [] [] (Actions None None None None) end.
Lemma sample_parse : ofile sample = Ok sample_file. Proof. vm_compute; reflexivity. Qed.

Lemma preamble_kinds N trunc ds ps ts : preamble_text N trunc ds ps ts -> Forall (fun d => In (snd d) var_kinds) ds.
Proof.
  induction 1 as [|k xs tx ds ps ts Hk Hx Hp IH|]; [constructor| |assumption].
  unfold declaration in *; apply Forall_app; split; [|exact IH].
  clear - Hk; induction xs; constructor; auto.
Qed.
Lemma parsed_kinds N float_of trunc nzero t f :
  parse_file N float_of trunc nzero t = Ok f -> Forall (fun d => In (snd d) var_kinds) (m_decls f).
Proof.
  intros H; unfold parse_file in H; apply bind_ok in H as (ts & _ & H).
  apply parse_model_iff in H; inversion H as [? ? ? ? ? ? ? ? ? ? Hp]; subst; cbn [m_decls].
  eapply preamble_kinds; exact Hp.
Qed.

(** C13 and C14, the check itself: a file is accepted exactly when it is
    [well_declared] (SemanticsSpec.v). *)
Theorem C13_accepted_exactly :
  forall (N : Type) (float_of : text -> option N) (trunc : N -> option Z) (nzero : N) (t : text) (f : modfile N),
    parse_file N float_of trunc nzero t = Ok f ->
    (verify N f = Ok tt <-> well_declared N f).
Proof. intros N fo tr nz t f H; apply verify_iff; eapply parsed_kinds; exact H. Qed.
Print Assumptions C13_accepted_exactly.

(** C13. Names that are read are declared in the preamble (anywhere), assigned before,
    defined before in the model block, or being assigned.  Missing from the full claim:
    "earlier" for parameter assignments, see the refutations. *)
Theorem C13_accepted_uses_declared_partial :
  forall (N : Type) (float_of : text -> option N) (trunc : N -> option Z) (nzero : N) (t : text) (f : modfile N),
    parse_file N float_of trunc nzero t = Ok f -> verify N f = Ok tt ->
    let known := fun x => (exists k, In (x, k) (m_decls f)) \/ In x (keys (m_params f)) \/ predefined x in
    NoDup (map fst (m_decls f)) /\
    (forall pre x e post y, m_params f = pre ++ (x, e) :: post -> occurs N y e ->
       (exists k, In (y, k) (m_decls f)) \/ In y (keys pre) \/ y = x \/ predefined y) /\
    (forall pre x e post y, m_stmts f = pre ++ SLocal x e :: post -> occurs N y e ->
       known y \/ exists e', In (SLocal y e') pre) /\
    (forall pre tag l r post y, m_stmts f = pre ++ SEq tag l r :: post -> occurs N y l \/ occurs N y r ->
       known y \/ exists e', In (SLocal y e') pre) /\
    (forall tag l r y k, In (SEq tag l r) (m_stmts f) -> occurs_t N y k l \/ occurs_t N y k r ->
       exists k, In (y, k) (m_decls f) /\ k <> "parameters"%string) /\
    (forall a l x e y, In (Some (a, l)) [a_initval (m_actions f); a_endval (m_actions f); a_histval (m_actions f)] ->
       In (x, e) l -> In (x, "var"%string) (m_decls f) /\ (occurs N y e -> known y)) /\
    (forall a l h, a_shocks (m_actions f) = Some (a, l) -> In h l ->
       let exo x := In (x, "varexo"%string) (m_decls f) \/ In (x, "varexo_det"%string) (m_decls f) in
       match h with
       | ShCorr x y e | ShCov x y e => exo x /\ exo y /\ forall z, occurs N z e -> known z
       | ShVar x e | ShStd x e => exo x /\ forall z, occurs N z e -> known z
       | ShDet _ _ _ => False
       end).
Proof.
  intros N fo tr nz t f Hp Hv known.
  apply (proj1 (C13_accepted_exactly N fo tr nz t f Hp)) in Hv as ((D1 & D2) & As & Mo & Bo & (ar & ls & Es & Sh)).
  assert (L : forall pre y, In y (locals N pre) -> exists e', In (SLocal y e') pre).
  { intros pre y H; unfold locals in H; apply in_flat_map in H as (s & Hs & Hy).
    destruct s as [x e|]; [|contradiction]; destruct Hy as [<-|[]]; eauto. }
  split; [exact D1|]; split; [|split; [|split; [|split; [|split]]]].
  - intros pre x e post y E Ho; destruct (As _ _ _ _ E) as (_ & U & _); exact (U y Ho).
  - intros pre x e post y E Ho; destruct (Mo _ _ _ E) as (_ & U & _); destruct (U y Ho) as [K|K]; [left; exact K|right; auto].
  - intros pre tag l r post y E [Ho|Ho]; destruct (Mo _ _ _ E) as ((U1 & _) & (U2 & _)).
    + destruct (U1 y Ho) as [K|K]; [left; exact K|right; auto].
    + destruct (U2 y Ho) as [K|K]; [left; exact K|right; auto].
  - intros tag l r y k Hin Ho; apply in_split in Hin as (pre & post & E).
    destruct (Mo _ _ _ E) as ((_ & U1 & _) & (_ & U2 & _)); destruct Ho as [Ho|Ho]; [exact (U1 y k Ho)|exact (U2 y k Ho)].
  - intros a l x e y Hb Hi; destruct (Bo a l x e Hb Hi) as (B1 & U & _); split; [exact B1|exact (U y)].
  - intros a l h Ea Hh exo; rewrite Es in Ea; injection Ea as <- <-; specialize (Sh h Hh).
    destruct h as [x y e|x y e|x e|x e|]; try contradiction.
    + destruct Sh as (S1 & S2 & U & _); split; [exact S1|]; split; [exact S2|exact U].
    + destruct Sh as (S1 & S2 & U & _); split; [exact S1|]; split; [exact S2|exact U].
    + destruct Sh as (S1 & U & _); split; [exact S1|exact U].
    + destruct Sh as (S1 & U & _); split; [exact S1|exact U].
Qed.
Print Assumptions C13_accepted_uses_declared_partial.

(** The full claim is false: a name may be read before the declaration, an assignment
    may read the name it assigns, and [non_model] is known though never declared. *)
Theorem C13_use_before_declaration_refuted :
  ocheck "b = a; parameters a b; a = 1; model; end; shocks; end;" = Ok tt /\
  ocheck "parameters x; x = x; model; end; shocks; end;" = Ok tt /\
  ocheck "var x; model; x = non_model; end; shocks; end;" = Ok tt.
Proof. split; [|split]; vm_compute; reflexivity. Qed.
Print Assumptions C13_use_before_declaration_refuted.

Example C13_nonvacuous :
  ocheck sample = Ok tt /\ ocheck "var x; model; x = y; end; shocks; end;" <> Ok tt /\
  ocheck "var x; var x; model; end; shocks; end;" <> Ok tt /\
  ocheck "var x; varexo e; model; end; initval; e = 1; end; shocks; end;" <> Ok tt /\
  ocheck "var x; varexo e; model; end; shocks; var x = 1; end;" <> Ok tt.
Proof. split; [vm_compute; reflexivity|]; repeat split; vm_compute; discriminate. Qed.

(** C14. A file in which names are used properly is accepted, if it has a shocks block
    without deterministic shocks (part of [well_declared]). *)
Theorem C14_well_declared_is_accepted_partial :
  forall (N : Type) (float_of : text -> option N) (trunc : N -> option Z) (nzero : N) (t : text) (f : modfile N),
    parse_file N float_of trunc nzero t = Ok f -> well_declared N f -> verify N f = Ok tt.
Proof. intros N fo tr nz t f H; apply (C13_accepted_exactly N fo tr nz t f H). Qed.
Print Assumptions C14_well_declared_is_accepted_partial.

(** ... and yields an outline, if its values can be computed: arithmetic succeeds on
    numbers ([closed]), names are assigned before they are read, and local definitions
    read parameters and earlier local definitions only ([computable]). *)
Theorem C14_outline_exists_partial :
  forall (V : Type) (O : ops V) (two : V) (num : V -> Prop)
    (float_of : text -> option V) (trunc : V -> option Z) (nzero : V) (t : text) (f : modfile V),
    (forall v, o_isnone O v = true -> v = o_none O) -> closed V O num ->
    (forall v, num v -> o_isnone O v = false) -> num two ->
    parse_file V float_of trunc nzero t = Ok f -> well_declared V f -> computable V num f ->
    exists o, read_model V O two float_of trunc nzero t = Ok o.
Proof.
  intros V O two num fo tr nz t f Hn Hc Hs H2 Hp Hw Hco.
  pose proof (C14_well_declared_is_accepted_partial V fo tr nz t f Hp Hw) as Hv.
  unfold read_model; rewrite Hp; cbn [bind].
  apply (create_total V O two Hn num Hc Hs H2 f Hv Hco).
  - intros tag l r Hin; apply in_split in Hin as (pre & post & E).
    destruct Hw as (_ & _ & Mo & _); destruct (Mo _ _ _ E) as ((_ & _ & A1) & (_ & _ & A2)); split; assumption.
  - destruct Hw as (_ & _ & _ & _ & (ar & ls & Es & Sh)); exists ar, ls; split; [exact Es|].
    intros h Hh; specialize (Sh h Hh); destruct h; auto.
Qed.
Print Assumptions C14_outline_exists_partial.

(** The full claim is false.  Each of these files declares every name before use, no
    name twice, and assigns to parameters or fresh names: without a shocks block;
    with a shock for given periods; with a local definition that reads an endogenous
    variable, or a variable of the preamble; with a predetermined variable. *)
Theorem C14_refuted :
  oread "var x; model; x = 1; end;" = Err GenericErr /\
  oread "var x; varexo_det e; model; x = e; end; shocks; var e; periods 1; values 1; end;" = Err AttrErr /\
  oread "var x; model; # y = x(-1); x = y; end; shocks; end;" = Err GenericErr /\
  oread "var x; model; # y = x + 1; x = y; end; shocks; end;" = Err TypeErr /\
  oread "h = 1; var x; model; # y = h + 1; x = y; end; shocks; end;" = Err TypeErr /\
  oread "var x; predetermined_variables k; model; x = k; end; shocks; end;" = Err KeyErr.
Proof. repeat apply conj; vm_compute; reflexivity. Qed.
Print Assumptions C14_refuted.

Definition onum (v : option Z) : Prop := v <> None.
Lemma OZ_closed : closed (option Z) OZ onum.
Proof.
  unfold closed, onum; split; [|split].
  - intros o [v|] [w|] Hv Hw; try congruence; cbn; eexists; split; [reflexivity|discriminate].
  - intros o [v|] Hv; try congruence; cbn; eexists; split; [reflexivity|discriminate].
  - intros f [v|] Hv; try congruence; cbn; eexists; split; [reflexivity|discriminate].
Qed.
Ltac split_list E := repeat match type of E with
  | _ :: _ = ?pre ++ _ :: _ => destruct pre; cbn [app] in E; [injection E as; subst|injection E as ? E; subst]
  | [] = ?pre ++ _ :: _ => destruct pre; discriminate E
  end.
Ltac occ := repeat match goal with H : occurs _ _ _ |- _ => inversion H; clear H; subst end.
Lemma sample_well_declared : well_declared (option Z) sample_file.
Proof. apply (C13_accepted_exactly _ odec (fun v => v) (Some 0%Z) (chars sample) _ sample_parse); vm_compute; reflexivity. Qed.
Lemma sample_computable : computable (option Z) onum sample_file.
Proof.
  unfold computable, sample_file; cbn [m_decls m_params m_stmts m_actions a_initval a_endval a_histval a_shocks assigns].
  split; [repeat (apply Forall_cons; [cbn [snd In]; tauto|]); apply Forall_nil|]; split; [|split; [|split; [|split]]].
  - intros pre x e post E; split_list E; split; cbn; unfold onum; try (repeat split; discriminate);
      intros y Hy; occ; cbn; tauto.
  - intros pre x e post E; split_list E; try discriminate; split; cbn; auto; intros y Hy; occ; cbn; tauto.
  - intros x e H; cbn [app In] in H; repeat destruct H as [H|H]; try contradiction; injection H as <- <-; split; cbn; unfold onum;
      try (repeat split; discriminate); intros y Hy; occ; cbn; tauto.
  - intros a l h E; injection E as <- <-; cbn [In]; intros H; repeat destruct H as [H|H]; try contradiction; subst h; split; cbn; unfold onum;
      try discriminate; auto; intros y Hy; occ; cbn; tauto.
  - congruence.
Qed.
Example C14_nonvacuous : well_declared (option Z) sample_file /\ computable (option Z) onum sample_file /\ exists o, oread sample = Ok o.
Proof.
  split; [exact sample_well_declared|]; split; [exact sample_computable|].
  apply (C14_outline_exists_partial _ OZ (Some 2%Z) onum odec (fun v => v) (Some 0%Z) (chars sample) sample_file).
  - intros [v|]; cbn; congruence.
  - exact OZ_closed.
  - intros [v|]; unfold onum; cbn; congruence.
  - discriminate.
  - exact sample_parse.
  - exact sample_well_declared.
  - exact sample_computable.
Qed.

(** C15. A local definition is known to the later statements of the model block only:
    it is no other name of the file, no statement before it and no boundary value or
    shock moment reads it. *)
Theorem C15_local_names_do_not_leak :
  forall (N : Type) (float_of : text -> option N) (trunc : N -> option Z) (nzero : N) (t : text) (f : modfile N)
    (pre post : list (statement N)) (x : string) (e : ast N),
    parse_file N float_of trunc nzero t = Ok f -> verify N f = Ok tt ->
    m_stmts f = pre ++ SLocal x e :: post ->
    ~ (exists k, In (x, k) (m_decls f)) /\ ~ In x (keys (m_params f)) /\
    ~ occurs N x e /\
    (forall s, In s pre -> match s with
       | SLocal y e' => y <> x /\ ~ occurs N x e'
       | SEq _ l r => ~ occurs N x l /\ ~ occurs N x r
       end) /\
    (forall a l y e', In (Some (a, l)) [a_initval (m_actions f); a_endval (m_actions f); a_histval (m_actions f)] ->
       In (y, e') l -> y <> x /\ ~ occurs N x e') /\
    (forall a l h, a_shocks (m_actions f) = Some (a, l) -> In h l -> match h with
       | ShCorr y z e' | ShCov y z e' => y <> x /\ z <> x /\ ~ occurs N x e'
       | ShVar y e' | ShStd y e' => y <> x /\ ~ occurs N x e'
       | ShDet y _ _ => y <> x
       end).
Proof.
  intros N fo tr nz t f pre post x e Hp Hv E.
  apply (proj1 (C13_accepted_exactly N fo tr nz t f Hp)) in Hv as ((D1 & D2) & As & Mo & Bo & (ar & ls & Es & Sh)).
  destruct (Mo _ _ _ E) as (Fresh & (U & _)).
  assert (Ng : ~ global N f x) by (intros G; apply Fresh; left; exact G).
  assert (Nl : forall p q s, pre = p ++ s :: q -> ~ In x (locals N p)).
  { intros p q s -> G; apply Fresh; right; unfold locals; rewrite flat_map_app; apply in_app_iff; left; exact G. }
  assert (Nd : forall k, ~ declared N f k x) by (intros k D; apply Ng; left; exists k; exact D).
  split; [|split; [|split; [|split; [|split]]]].
  - intros (k & D); exact (Nd k D).
  - intros G; apply Ng; right; left; exact G.
  - intros Ho; exact (Fresh (U x Ho)).
  - intros s Hs; apply in_split in Hs as (p & q & Ep); specialize (Nl p q s Ep).
    assert (Es' : m_stmts f = p ++ s :: (q ++ SLocal x e :: post)) by (rewrite E, Ep, <- app_assoc; reflexivity).
    specialize (Mo _ _ _ Es'); destruct s as [y e'|tag l r].
    + destruct Mo as (_ & (U' & _)); split.
      * intros ->; apply Fresh; right; rewrite Ep; unfold locals; rewrite flat_map_app; apply in_app_iff; right; left; reflexivity.
      * intros Ho; destruct (U' x Ho) as [G|G]; contradiction.
    + destruct Mo as ((U1 & _) & (U2 & _)); split; intros Ho; [destruct (U1 x Ho)|destruct (U2 x Ho)]; contradiction.
  - intros a l y e' Hb Hi; destruct (Bo a l y e' Hb Hi) as (B1 & (U' & _)); split.
    + intros ->; exact (Nd _ B1).
    + intros Ho; exact (Ng (U' x Ho)).
  - intros a l h Ea Hh; rewrite Es in Ea; injection Ea as <- <-; specialize (Sh h Hh).
    assert (Nx : forall y, shock_name N f y -> y <> x) by (intros y [G|G] ->; exact (Nd _ G)).
    destruct h as [y z e'|y z e'|y e'|y e'|y ps vs]; try contradiction.
    + destruct Sh as (S1 & S2 & (U' & _)); repeat split; auto; intros Ho; exact (Ng (U' x Ho)).
    + destruct Sh as (S1 & S2 & (U' & _)); repeat split; auto; intros Ho; exact (Ng (U' x Ho)).
    + destruct Sh as (S1 & (U' & _)); split; auto; intros Ho; exact (Ng (U' x Ho)).
    + destruct Sh as (S1 & (U' & _)); split; auto; intros Ho; exact (Ng (U' x Ho)).
Qed.
Print Assumptions C15_local_names_do_not_leak.

(** What is behind the model block is judged and computed as if the block were
    another one. *)
Theorem C15_check_behind_block :
  forall (N : Type) (ds : list declaration) (ps : list (assignment N)) (args : list (argument N))
    (ms ms' : list (statement N)) (acts acts' : actions N),
    Forall (fun d => In (snd d) var_kinds) ds ->
    let file m a := verify N (ModFile ds ps args m a) in
    file ms acts = Ok tt -> file ms' acts' = Ok tt -> file ms acts' = Ok tt.
Proof.
  intros N ds ps args ms ms' acts acts' Hk file; unfold file; rewrite !verify_iff by exact Hk.
  intros (D & A & M & _ & _) (_ & _ & _ & B & S); split; [exact D|]; split; [exact A|]; split; [exact M|]; split; [exact B|exact S].
Qed.
Print Assumptions C15_check_behind_block.

Theorem C15_values_behind_block :
  forall (V : Type) (O : ops V) (two : V) (f f' : modfile V) (o o' : outline V),
    m_decls f' = m_decls f -> m_params f' = m_params f -> m_actions f' = m_actions f ->
    create_outline V O two f = Ok o -> create_outline V O two f' = Ok o' ->
    o_init V o' = o_init V o /\ o_term V o' = o_term V o /\ o_hist V o' = o_hist V o /\ o_shocks V o' = o_shocks V o.
Proof.
  intros V O two f f' o o' Ed Ep Ea H H'; unfold create_outline in *; rewrite Ed, Ep, Ea in H'.
  apply bind_ok in H as (u & _ & H); apply bind_ok in H as (o1 & H1 & H); apply bind_ok in H as (om & H2 & H); apply bind_ok in H as (ol & H3 & H).
  apply bind_ok in H' as (u' & _ & H'); rewrite H1 in H'; cbn [bind] in H'; rewrite H2 in H'; cbn [bind] in H'; apply bind_ok in H' as (ol' & H3' & H').
  assert (P0 : plain V (fst om)).
  { assert (P1 : plain V o1) by (eapply declare_plain; [exact H1|]; repeat split; reflexivity).
    clear - H2 P1; revert H2; generalize (Memory V [] []) as m; revert o1 P1.
    induction (m_params f) as [|[x e] l IH]; intros o1 P1 m H; cbn [foldM] in H; [injection H as <-; exact P1|].
    apply bind_ok in H as ([o2 m2] & H2 & H); refine (IH o2 _ m2 H); clear - H2 P1; unfold assign in H2.
    apply bind_ok in H2 as (v & _ & H2); destruct (mem x (keys (o_params V o1))); injection H2 as <- _; exact P1. }
  pose proof (stmts_plain V O _ _ _ _ H3 P0) as (P1 & P2 & P3 & P4).
  pose proof (stmts_plain V O _ _ _ _ H3' P0) as (Q1 & Q2 & Q3 & Q4).
  unfold model_actions, boundaries in *; rewrite P1, P2, P3 in H; rewrite Q1, Q2, Q3 in H'.
  apply bind_ok in H as (b & H & G); apply bind_ok in H' as (b' & H' & G').
  destruct (a_shocks (m_actions f)) as [[ar ls]|]; [|discriminate].
  apply bind_ok in G as (d & Gd & G); apply bind_ok in G' as (d' & Gd' & G'); rewrite Gd in Gd'; injection Gd' as <-; injection G as <-; injection G' as <-.
  apply bind_ok in H as (d1 & H1' & H); rewrite H1' in H'; cbn [bind] in H'.
  apply bind_ok in H as (d2 & H2' & H); rewrite H2' in H'; cbn [bind] in H'.
  apply bind_ok in H as (d3 & H3'' & H); rewrite H3'' in H'; cbn [bind] in H'.
  injection H as <-; injection H' as <-; cbn; auto.
Qed.
Print Assumptions C15_values_behind_block.

Example C15_nonvacuous :
  ocheck "var x; model; # y = 2; x = y; end; shocks; end;" = Ok tt /\
  ocheck "var x; model; x = y; # y = 2; end; shocks; end;" <> Ok tt /\
  ocheck "var x; model; # y = 2; x = y; end; initval; x = y; end; shocks; end;" <> Ok tt /\
  (exists pre e post, m_stmts sample_file = pre ++ SLocal "m" e :: post) /\
  verify _ sample_file = Ok tt.
Proof.
  split; [vm_compute; reflexivity|]; split; [vm_compute; discriminate|]; split; [vm_compute; discriminate|].
  split; [|vm_compute; reflexivity]; exists []; do 2 eexists; cbn; reflexivity.
Qed.

(** C16. Initial and terminal values are those the blocks assign, computed from what
    the assignments of the preamble give ([exec]).  Historical values are not: they
    are the terminal values. *)
Theorem C16_boundary_values_partial :
  forall (V : Type) (O : ops V) (two : V) (f : modfile V) (o : outline V),
    (forall v, o_isnone O v = true -> v = o_none O) ->
    create_outline V O two f = Ok o ->
    exists rho, exec V O (nothing V O) (m_params f) = Ok rho /\
      block_values V O rho (assigns V (a_initval (m_actions f))) (o_init V o) /\
      block_values V O rho (assigns V (a_endval (m_actions f))) (o_term V o) /\
      (a_histval (m_actions f) = None -> o_hist V o = []).
Proof.
  intros V O two f o Hn H; apply (create_inv V O two Hn) in H as (_ & rho & m & o1 & ol & E & Hm & _ & _ & P & H).
  apply (actions_spec V O two m rho _ _ _ Hm P) in H as (I & T & Hh & _).
  exists rho; split; [exact E|]; split; [exact I|]; split; [exact T|].
  intros Hnone; rewrite Hh, Hnone; reflexivity.
Qed.
Print Assumptions C16_boundary_values_partial.

(** Whenever there is a histval block, its values are lost. *)
Theorem C16_historical_values_refuted :
  (forall (V : Type) (O : ops V) (two : V) (f : modfile V) (o : outline V),
    (forall v, o_isnone O v = true -> v = o_none O) ->
    create_outline V O two f = Ok o -> a_histval (m_actions f) <> None ->
    o_hist V o = o_term V o /\ a_endval (m_actions f) <> None) /\
  (exists o, oread "var x; model; x = 1; end; endval; x = 3; end; histval; x = 2; end; shocks; end;" = Ok o /\
     o_hist _ o = [("x"%string, Some 3%Z)]) /\
  oread "var x; model; x = 1; end; histval; x = 2; end; shocks; end;" = Err UnboundErr.
Proof.
  split; [|split; [eexists; split; vm_compute; reflexivity|vm_compute; reflexivity]].
  intros V O two f o Hn H Hh; apply (create_inv V O two Hn) in H as (_ & rho & m & o1 & ol & E & Hm & _ & _ & P & H).
  apply (actions_spec V O two m rho _ _ _ Hm P) in H as (_ & _ & G & Ge & _); split; [|exact (Ge Hh)].
  rewrite G; destruct (a_histval (m_actions f)); [reflexivity|contradiction].
Qed.
Print Assumptions C16_historical_values_refuted.

Example C16_nonvacuous : exists o, oread sample = Ok o /\
  lookup "c" (o_init _ o) = Some (Some 5%Z) /\ lookup "k" (o_init _ o) = Some (Some 24%Z) /\ o_term _ o = [("c"%string, Some 1%Z)].
Proof. eexists; split; [vm_compute; reflexivity|repeat split]. Qed.

(** C17. Each moment of each shock is what the last statement about it says; the
    partner of a shock is that of the last correlation or covariance. *)
Theorem C17_moments_exact :
  forall (V : Type) (O : ops V) (two : V) (f : modfile V) (o : outline V),
    (forall v, o_isnone O v = true -> v = o_none O) ->
    create_outline V O two f = Ok o ->
    exists rho args l, exec V O (nothing V O) (m_params f) = Ok rho /\
      a_shocks (m_actions f) = Some (args, l) /\
      forall x, let s := of_shock V (o_shocks V o) x in
        (forall v, variance V s = Some v <-> exists q, last_such (states_variance V x) l = Some q /\ moment V O two rho q = Ok v) /\
        (other V s = last_such (states_other V x) l) /\
        (forall v, corr V s = Some v <-> exists e, last_such (states_corr V x) l = Some e /\ eval_in V O rho e = Ok v) /\
        (forall v, cov V s = Some v <-> exists e, last_such (states_cov V x) l = Some e /\ eval_in V O rho e = Ok v).
Proof.
  intros V O two f o Hn H; apply (create_inv V O two Hn) in H as (_ & rho & m & o1 & ol & E & Hm & _ & _ & P & H).
  apply (actions_spec V O two m rho _ _ _ Hm P) in H as (_ & _ & _ & _ & (ar & l & d & Es & <- & Ef)).
  exists rho, ar, l; split; [exact E|]; split; [exact Es|]; intros x s.
  pose proof (shocks_run V O two m rho l Hm [] (o_shocks V o) Ef x) as (S1 & S2 & S3 & S4).
  assert (X : forall {A} (now : option V) (g : A -> res V) (q : option A), sees V rho now (option_map g q) None ->
    forall v, now = Some v <-> exists e, q = Some e /\ g e = Ok v).
  { intros A now g q G v; unfold sees in G; destruct q as [e|]; cbn [option_map] in G.
    - destruct G as (w & G & ->); split; [intros J; injection J as <-; eauto|intros (e' & J & J'); injection J as <-; congruence].
    - rewrite G; split; [discriminate|intros (e' & J & _); discriminate]. }
  split; [apply X; exact S1|]; split; [|split; [apply X; exact S3|apply X; exact S4]].
  unfold s; rewrite S2; destruct (last_such (states_other V x) l); reflexivity.
Qed.
Print Assumptions C17_moments_exact.

(** A shock that moves with one other shock only has the stated partner, correlation
    and covariance, if stated once.  Missing: a shock with several partners. *)
Theorem C17_stated_moments_partial :
  forall (V : Type) (O : ops V) (two : V) (f : modfile V) (o : outline V) rho args l (x y : string),
    (forall v, o_isnone O v = true -> v = o_none O) ->
    create_outline V O two f = Ok o -> exec V O (nothing V O) (m_params f) = Ok rho ->
    a_shocks (m_actions f) = Some (args, l) ->
    (forall z e, In (ShCorr x z e) l \/ In (ShCov x z e) l -> z = y) ->
    let s := of_shock V (o_shocks V o) x in
    (forall e, In (ShVar x e) l -> (forall h, In h l -> states_variance V x h <> None -> h = ShVar x e) ->
       exists v, eval_in V O rho e = Ok v /\ variance V s = Some v) /\
    (forall e, In (ShStd x e) l -> (forall h, In h l -> states_variance V x h <> None -> h = ShStd x e) ->
       exists v w, eval_in V O rho e = Ok v /\ o_bin O BPow v two = Ok w /\ variance V s = Some w) /\
    (forall e, In (ShCorr x y e) l -> (forall e', In (ShCorr x y e') l -> e' = e) ->
       exists v, eval_in V O rho e = Ok v /\ other V s = Some y /\ corr V s = Some v) /\
    (forall e, In (ShCov x y e) l -> (forall e', In (ShCov x y e') l -> e' = e) ->
       exists v, eval_in V O rho e = Ok v /\ other V s = Some y /\ cov V s = Some v).
Proof.
  intros V O two f o rho ar l x y Hn H Er Es Hone s.
  apply (create_inv V O two Hn) in H as (_ & rho' & m & o1 & ol & E & Hm & _ & _ & P & H).
  rewrite Er in E; injection E as <-.
  apply (actions_spec V O two m rho _ _ _ Hm P) in H as (_ & _ & _ & _ & (ar' & l' & d & Es' & <- & Ef)).
  rewrite Es in Es'; injection Es' as <- <-.
  pose proof (shocks_run V O two m rho l Hm [] (o_shocks V o) Ef x) as (S1 & S2 & S3 & S4); fold s in S1, S2, S3, S4.
  assert (L : forall {B} (p : shock V -> option B) h b, In h l -> p h = Some b ->
    (forall h' b', In h' l -> p h' = Some b' -> b' = b) -> last_such p l = Some b).
  { clear; intros B p h b Hin Hp Hu; induction l as [|h0 l IH]; [contradiction|]; cbn [last_such].
    destruct (last_such p l) as [b'|] eqn:E.
    - assert (Q : exists h', In h' l /\ p h' = Some b').
      { clear - E; induction l as [|h l IH]; [discriminate|]; cbn [last_such] in E.
        destruct (last_such p l) as [c|]; [destruct (IH E) as (h' & Hh & Hp); exists h'; split; [right|]; assumption|exists h; split; [left; reflexivity|exact E]]. }
      destruct Q as (h' & Q1 & Q2); f_equal; apply (Hu h'); [right; exact Q1|exact Q2].
    - destruct Hin as [->|Hin]; [exact Hp|].
      assert (None = Some b); [|discriminate]; apply IH; [exact Hin|intros h' b' G; apply Hu; right; exact G]. }
  assert (Lo : forall h, In h l -> states_other V x h = Some y -> other V s = Some y).
  { intros h Hin Hp; rewrite S2, (L _ (states_other V x) h y Hin Hp); [reflexivity|].
    intros h' z Hin' Hz; destruct h' as [u w e'|u w e'| | |]; cbn [states_other] in Hz; try discriminate;
      destruct (String.eqb_spec x u) as [<-|]; try discriminate; injection Hz as <-; apply (Hone w e'); auto. }
  split; [|split; [|split]].
  - intros e Hin Hu; rewrite (L _ (states_variance V x) (ShVar x e) (false, e) Hin) in S1.
    + cbn [option_map sees moment fst snd] in S1; destruct S1 as (v & S1 & S1'); exists v; split; [|exact S1'].
      unfold moment in S1; cbn [fst snd] in S1; apply bind_ok in S1 as (w & S1 & G); injection G as <-; exact S1.
    + cbn [states_variance]; rewrite String.eqb_refl; reflexivity.
    + intros h' b' Hin' Hb; rewrite (Hu h' Hin') in Hb by congruence; cbn [states_variance] in Hb; rewrite String.eqb_refl in Hb; congruence.
  - intros e Hin Hu; rewrite (L _ (states_variance V x) (ShStd x e) (true, e) Hin) in S1.
    + cbn [option_map sees] in S1; destruct S1 as (w & S1 & S1').
      unfold moment in S1; cbn [fst snd] in S1; apply bind_ok in S1 as (v & S1 & G); exists v, w; auto.
    + cbn [states_variance]; rewrite String.eqb_refl; reflexivity.
    + intros h' b' Hin' Hb; rewrite (Hu h' Hin') in Hb by congruence; cbn [states_variance] in Hb; rewrite String.eqb_refl in Hb; congruence.
  - intros e Hin Hu; rewrite (L _ (states_corr V x) (ShCorr x y e) e Hin) in S3.
    + cbn [option_map sees] in S3; destruct S3 as (v & S3 & S3'); exists v; split; [exact S3|]; split; [|exact S3'].
      apply (Lo (ShCorr x y e) Hin); cbn [states_other]; rewrite String.eqb_refl; reflexivity.
    + cbn [states_corr]; rewrite String.eqb_refl; reflexivity.
    + intros h' b' Hin' Hb; destruct h' as [u w e'| | | |]; cbn [states_corr] in Hb; try discriminate.
      destruct (String.eqb_spec x u) as [<-|]; [injection Hb as <-|discriminate].
      assert (w = y) as -> by (apply (Hone w e'); auto); apply Hu; exact Hin'.
  - intros e Hin Hu; rewrite (L _ (states_cov V x) (ShCov x y e) e Hin) in S4.
    + cbn [option_map sees] in S4; destruct S4 as (v & S4 & S4'); exists v; split; [exact S4|]; split; [|exact S4'].
      apply (Lo (ShCov x y e) Hin); cbn [states_other]; rewrite String.eqb_refl; reflexivity.
    + cbn [states_cov]; rewrite String.eqb_refl; reflexivity.
    + intros h' b' Hin' Hb; destruct h' as [|u w e'| | |]; cbn [states_cov] in Hb; try discriminate.
      destruct (String.eqb_spec x u) as [<-|]; [injection Hb as <-|discriminate].
      assert (w = y) as -> by (apply (Hone w e'); auto); apply Hu; exact Hin'.
Qed.
Print Assumptions C17_stated_moments_partial.

(** Two partners: the first correlation is lost; and a covariance with one shock is
    paired with the name of another. *)
Theorem C17_two_partners_refuted :
  (exists o, oread "var x; varexo e u w; model; x = e + u + w; end; shocks; var e = 1; corr e, u = 2; corr e, w = 3; end;" = Ok o /\
     of_shock _ (o_shocks _ o) "e" = Moments _ (Some (Some 1%Z)) (Some "w"%string) (Some (Some 3%Z)) None /\
     of_shock _ (o_shocks _ o) "u" = no_moments _) /\
  (exists o, oread "var x; varexo e u w; model; x = e + u + w; end; shocks; var e = 1; var e, u = 2; corr e, w = 3; end;" = Ok o /\
     of_shock _ (o_shocks _ o) "e" = Moments _ (Some (Some 1%Z)) (Some "w"%string) (Some (Some 3%Z)) (Some (Some 2%Z))).
Proof.
  split.
  - eexists; split; [vm_compute; reflexivity|]; split; vm_compute; reflexivity.
  - eexists; split; vm_compute; reflexivity.
Qed.
Print Assumptions C17_two_partners_refuted.

Example C17_nonvacuous : exists o, oread sample = Ok o /\
  of_shock _ (o_shocks _ o) "e" = Moments _ (Some (Some 9%Z)) (Some "u"%string) (Some (Some 4%Z)) None /\
  of_shock _ (o_shocks _ o) "u" = Moments _ (Some (Some 4%Z)) None None None.
Proof. eexists; split; [vm_compute; reflexivity|split; vm_compute; reflexivity]. Qed.

(** C23 for outlines: the periods recorded for an endogenous variable are those with
    which it occurs in the equations. *)
Theorem C23_outline_lead_lags :
  forall (V : Type) (O : ops V) (two : V) (f : modfile V) (o : outline V) (x : string),
    create_outline V O two f = Ok o ->
    (In (x, "var"%string) (m_decls f) ->
     exists ps, lookup x (o_lead_lags V o) = Some ps /\ NoDup ps /\
       forall k, In k ps <-> exists tag l r, In (SEq tag l r) (m_stmts f) /\ (at_period V x k l \/ at_period V x k r)) /\
    (~ In (x, "var"%string) (m_decls f) -> lookup x (o_lead_lags V o) = None).
Proof.
  intros V O two f o x H; unfold create_outline in H.
  apply bind_ok in H as (u & _ & H); apply bind_ok in H as (o1 & H1 & H); apply bind_ok in H as (om & H2 & H); apply bind_ok in H as (ol & H3 & H).
  assert (Eo : o_lead_lags V o = o_lead_lags V (fst ol)).
  { unfold model_actions, boundaries in H; apply bind_ok in H as (b & H & G); destruct (a_shocks (m_actions f)) as [[ar l]|]; [|discriminate].
    apply bind_ok in G as (d & _ & G); injection G as <-; cbn [o_lead_lags].
    apply bind_ok in H as (d1 & _ & H); apply bind_ok in H as (d2 & _ & H); apply bind_ok in H as (d3 & _ & H); injection H as <-; reflexivity. }
  assert (Em : o_lead_lags V (fst om) = o_lead_lags V o1).
  { clear - H2; revert H2; generalize (Memory V [] []) as m; revert o1.
    induction (m_params f) as [|[y e] l IH]; intros o1 m H; cbn [foldM] in H; [injection H as <-; reflexivity|].
    apply bind_ok in H as ([o2 m2] & H2 & H); rewrite (IH o2 m2 H); unfold assign in H2.
    apply bind_ok in H2 as (v & _ & H2); destruct (mem y (keys (o_params V o1))); injection H2 as <- _; reflexivity. }
  assert (Ed : forall ds (o0 o1 : outline V), foldM (declare V) o0 ds = Ok o1 ->
    (lookup x (o_lead_lags V o0) = None \/ lookup x (o_lead_lags V o0) = Some []) ->
    (In (x, "var"%string) ds -> lookup x (o_lead_lags V o1) = Some []) /\
    (~ In (x, "var"%string) ds -> lookup x (o_lead_lags V o1) = lookup x (o_lead_lags V o0))).
  { clear; induction ds as [|[y k] ds IH]; intros o0 o1 H Hx; cbn [foldM] in H.
    - injection H as <-; split; [intros []|reflexivity].
    - apply bind_ok in H as (o2 & H2 & H).
      assert (S : lookup x (o_lead_lags V o2) = if (String.eqb x y && String.eqb k "var")%bool then Some [] else lookup x (o_lead_lags V o0)).
      { unfold declare in H2; destruct (String.eqb_spec k "parameters") as [->|]; [injection H2 as <-; rewrite andb_false_r; reflexivity|].
        destruct (String.eqb_spec k "varexo") as [->|]; [injection H2 as <-; rewrite andb_false_r; reflexivity|].
        destruct (String.eqb_spec k "varexo_det") as [->|]; [injection H2 as <-; rewrite andb_false_r; reflexivity|].
        destruct (String.eqb_spec k "var") as [->|]; [|discriminate]; injection H2 as <-; cbn [o_lead_lags].
        rewrite lookup_update, andb_true_r; reflexivity. }
      destruct (IH o2 o1 H) as [I1 I2].
      { rewrite S; destruct (String.eqb x y && String.eqb k "var")%bool; auto. }
      destruct (in_dec (fun a b : string * string => ltac:(decide equality; apply string_dec)) (x, "var"%string) ds) as [G|G].
      + split; [auto|]; intros N; exfalso; apply N; right; exact G.
      + rewrite (I2 G), S; destruct (String.eqb_spec x y) as [->|Nx]; cbn [andb].
        * destruct (String.eqb_spec k "var") as [->|Nk].
          -- split; [reflexivity|]; intros N; exfalso; apply N; left; reflexivity.
          -- split; [intros [E|E]; [congruence|contradiction]|reflexivity].
        * split; [intros [E|E]; [congruence|contradiction]|reflexivity]. }
  assert (Alg : forall (e : ast V) ll ll', record_periods V e ll = Ok ll' -> algebraic V e).
  { clear; induction e as [n|y|y k|u e IH|b l IHl r IHr|g e IH|c l IHl r IHr]; intros ll ll' H; cbn [record_periods algebraic] in *; auto.
    - eauto.
    - apply bind_ok in H as (l1 & H1 & H); eauto.
    - eauto.
    - discriminate. }
  assert (Es : forall l (ol ol' : outline V * list (string * V)), foldM (model_stmt V O (model_mem V (snd om))) ol l = Ok ol' ->
    match lookup x (o_lead_lags V (fst ol)) with
    | None => lookup x (o_lead_lags V (fst ol')) = None
    | Some ps => exists ps', lookup x (o_lead_lags V (fst ol')) = Some ps' /\ (NoDup ps -> NoDup ps') /\
        forall k, In k ps' <-> In k ps \/ exists tag l0 r, In (SEq tag l0 r) l /\ (at_period V x k l0 \/ at_period V x k r)
    end).
  { clear - Alg; induction l as [|st l IH]; intros ol ol' H; cbn [foldM] in H.
    - injection H as <-; destruct (lookup x (o_lead_lags V (fst ol))) as [ps|]; [|reflexivity].
      exists ps; split; [reflexivity|]; split; [auto|]; intros k; split; [auto|intros [?|(t & a & b & [] & _)]; assumption].
    - apply bind_ok in H as (ol1 & H1 & H); specialize (IH _ _ H); destruct ol as [o loc]; cbn [model_stmt fst] in *.
      destruct st as [y e|tag l0 r].
      + apply bind_ok in H1 as (v & _ & H1); injection H1 as <-; cbn [fst o_lead_lags] in IH.
        destruct (lookup x (o_lead_lags V o)) as [ps|]; [|exact IH]; destruct IH as (ps' & I1 & I2 & I3).
        exists ps'; split; [exact I1|]; split; [exact I2|]; intros k; rewrite I3; split; (intros [?|(t & a & b & G & P)]; [auto|right]).
        * exists t, a, b; split; [right; exact G|exact P].
        * destruct G as [G|G]; [discriminate|]; exists t, a, b; auto.
      + cbv zeta in H1; apply bind_ok in H1 as (ll & Hl & H1); injection H1 as <-; cbn [fst o_lead_lags] in IH.
        destruct (periods_spec V (Bin BSub l0 r) (o_lead_lags V o) (Alg _ _ _ Hl)) as (ll' & E & G); rewrite Hl in E; injection E as <-; specialize (G x).
        destruct (lookup x (o_lead_lags V o)) as [ps|]; [|rewrite G in IH; exact IH].
        destruct G as (ps1 & G1 & G2 & G3); rewrite G1 in IH; destruct IH as (ps' & I1 & I2 & I3).
        exists ps'; split; [exact I1|]; split; [auto|]; intros k; rewrite I3, G3; split.
        * intros [[?|P]|(t & a & b & Q & P)]; [auto| |]; right.
          -- exists tag, l0, r; split; [left; reflexivity|]; inversion P; auto.
          -- exists t, a, b; split; [right; exact Q|exact P].
        * intros [?|(t & a & b & [Q|Q] & P)]; [auto| |right; exists t, a, b; auto].
          injection Q as <- <- <-; left; right; destruct P; [apply P_binl|apply P_binr]; assumption. }
  specialize (Es _ _ _ H3); cbn [fst] in Es; rewrite Em in Es; rewrite Eo.
  destruct (Ed _ _ _ H1 (or_introl eq_refl)) as [D1 D2]; split.
  - intros Hin; rewrite (D1 Hin) in Es; destruct Es as (ps & E1 & E2 & E3); exists ps; split; [exact E1|]; split; [apply E2; constructor|].
    intros k; rewrite E3; split; [intros [[]|?]; assumption|auto].
  - intros Hin; rewrite (D2 Hin) in Es; exact Es.
Qed.
Print Assumptions C23_outline_lead_lags.

Example C23_outline_nonvacuous : exists o, oread sample = Ok o /\
  lookup "c" (o_lead_lags _ o) = Some [0; 1]%Z /\ lookup "k" (o_lead_lags _ o) = Some [-1; 0]%Z /\ lookup "e" (o_lead_lags _ o) = None.
Proof. eexists; split; [vm_compute; reflexivity|repeat apply conj; vm_compute; reflexivity]. Qed.
