(** The compiled dynamic and steady equations: properties C27-C29. *)
From Verif Require Import Base Syntax Lexer Parser Eval EvalSpec EvalProofs ModFileSpec Semantics SemanticsSpec SemanticsProofs
  Factory FactorySpec FactoryProofs Indexing IndexingSpec IndexingProofs IndexingProofs2 DynFunc DynSpec DynProofs DynProofs2 DynProofs3 PropFile.

(** Every variable occurs, with offsets -1, 0 and 1. *)
Definition regular_model (V : Type) (endog : list string) (exprs : list (ast V)) : Prop :=
  (forall x, In x endog -> exists k e, In e exprs /\ at_period V x k e) /\
  (forall x k e, In x endog -> In e exprs -> at_period V x k e -> (-1 <= k <= 1)%Z).
(** Equations as they come from the parser: two sides, no comparison, functions of the
    language. *)
Definition well_formed (V : Type) (e : ast V) : Prop :=
  is_equation V e /\ algebraic V e /\ functions V (fun f => In f reserved_funcs) e.

(** ** C28: the dynamic function of the model computes the residuals.
    Parts of the property that fail: a name followed by "m1" or "p1" being another name
    of the model, and the offset 0 written out, x(0). *)
Theorem C28_dynamic_residuals_partial :
  forall (V : Type) (O : ops V) (zero : V) (endog stoch : list string) (exprs : list (ast V)) (params : list (string * V)),
    NoDup (endog ++ stoch) -> no_clash V endog stoch params -> regular_model V endog exprs ->
    Forall (fun e => well_formed V e /\ declared V endog stoch params e /\ offsets V e) exprs ->
    exists m l, build V endog stoch exprs params = Ok m /\ signature V endog exprs l /\
      (forall a u, List.length a = List.length l -> List.length u = List.length stoch ->
         forall vs, dynamic_call V O zero m (a ++ u) = Ok vs <->
           Forall2 (value V O (plain V endog stoch params l a u) (at_time V endog l a)) exprs vs) /\
      (forall a, List.length a = List.length l ->
         dynamic_call V O zero m a = dynamic_call V O zero m (a ++ repeat zero (List.length stoch))) /\
      (forall a, List.length a <> List.length l -> List.length a <> List.length l + List.length stoch ->
         dynamic_call V O zero m a = Err ValueErr).
Proof.
  intros V O zero endog stoch exprs params Nd Nc R W.
  assert (Ne : NoDup endog).
  { clear - Nd; induction endog as [|y l IH]; [constructor|]; cbn [app] in Nd; apply NoDup_cons_iff in Nd as [H1 H2]; constructor; [|exact (IH H2)].
    intros G; apply H1, in_app_iff; left; exact G. }
  assert (Ha : Forall (algebraic V) exprs) by (apply Forall_impl with (2 := W); intros e ((_ & H & _) & _); exact H).
  destruct (build_ok V endog exprs stoch params Ne R Ha) as (m & E & E1 & E2 & E3 & E4 & lls & El & Ei).
  exists m, (timed_vars (map snd lls)); split; [exact E|]; split; [apply signature_timed; assumption|].
  assert (L : List.length endog = List.length (map snd lls)) by (rewrite map_length; symmetry; exact (lls_length V endog exprs lls El)).
  unfold dynamic_call; rewrite E1, E2, E3, E4, Ei, timed_vars_length, (dyn_vars_names _ _ _ _ L).
  split; [|split].
  - intros a u La Lu vs; rewrite app_length, La, Lu, Nat.eqb_refl, mapM_ok.
    assert (G : forall l vs, Forall (fun e => well_formed V e /\ declared V endog stoch params e /\ offsets V e) l ->
      (Forall2 (fun e v => dynamic_func V O e (map (col_name endog) (timed_vars (map snd lls)) ++ stoch) params (a ++ u) = Ok v) l vs <->
       Forall2 (value V O (plain V endog stoch params (timed_vars (map snd lls)) a u) (at_time V endog (timed_vars (map snd lls)) a)) l vs)).
    { clear E E1 E2 E3 E4 El Ei vs R W Ha; intros l vs Hl; revert vs; induction Hl as [|e l ((He & Ha & Hf) & Hd & Ho) Hl IH]; intros vs; split; intros H; inversion H; subst; constructor.
      - apply (dynamic_value V endog stoch params (map snd lls) L Nd Nc a u La O Lu); assumption.
      - apply IH; assumption.
      - apply (dynamic_value V endog stoch params (map snd lls) L Nd Nc a u La O Lu); assumption.
      - apply IH; assumption. }
    apply G; exact W.
  - intros a La; rewrite app_length, repeat_length, La, !Nat.eqb_refl.
    destruct (Nat.eqb_spec (List.length (timed_vars (map snd lls))) (List.length (timed_vars (map snd lls)) + List.length stoch)) as [Z|Z]; [|reflexivity].
    assert (S0 : stoch = []) by (destruct stoch; [reflexivity|cbn [List.length] in Z; lia]); rewrite S0; cbn [repeat List.length]; rewrite !app_nil_r; reflexivity.
  - intros a H1 H2; apply Nat.eqb_neq in H1, H2; rewrite H1, H2; reflexivity.
Qed.
Print Assumptions C28_dynamic_residuals_partial.

(** For an equation, the residual is the left side less the right side. *)
Theorem C28_left_minus_right :
  forall (V : Type) (O : ops V) rho rho_t (l r : ast V) (v : V),
    value V O rho rho_t (Bin BSub l r) v <->
    exists a b, value V O rho rho_t l a /\ value V O rho rho_t r b /\ o_bin O BSub a b = Ok v.
Proof.
  intros V O rho rt l r v; split.
  - intros H; inversion H; subst; eauto.
  - intros (a & b & Ha & Hb & H); econstructor; eassumption.
Qed.
Print Assumptions C28_left_minus_right.

(** The columns are determined by the equations: there is only one signature. *)
Theorem C28_signature_unique :
  forall (V : Type) (endog : list string) (exprs : list (ast V)) l l',
    signature V endog exprs l -> signature V endog exprs l' -> l = l'.
Proof. exact signature_unique. Qed.
Print Assumptions C28_signature_unique.

(** A concrete model: c = beta c(+1), k = k(-1) + y, y = k(-1) e. *)
Definition oeq1 : ast (option Z) := Bin BSub (Var "c") (Bin BMul (Var "beta") (PVar "c" 1)).
Definition oeq2 : ast (option Z) := Bin BSub (Var "k") (Bin BAdd (PVar "k" (-1)) (Fun "abs" (Var "y"))).
Definition oeq3 : ast (option Z) := Bin BSub (Var "y") (Bin BMul (PVar "k" (-1)) (Var "e")).
Definition oendog : list string := ["c"; "k"; "y"]%string.
Definition ostoch : list string := ["e"]%string.
Definition oparams : list (string * option Z) := [("beta", Some 3%Z)]%string.
Definition omodel : list (ast (option Z)) := [oeq1; oeq2; oeq3].
Ltac names_differ := intros x y Hx Hy; cbn [names app keys map fst In oendog ostoch oparams] in Hx, Hy;
  repeat (destruct Hx as [<-|Hx]); try contradiction; repeat (destruct Hy as [<-|Hy]); try contradiction; split; discriminate.
Ltac invert_tree := repeat match goal with
  | H : occurs _ _ (_ _) |- _ => inversion H; subst; clear H
  | H : occurs _ _ (_ _ _) |- _ => inversion H; subst; clear H
  | H : occurs _ _ (_ _ _ _) |- _ => inversion H; subst; clear H
  | H : occurs_t _ _ _ (_ _) |- _ => inversion H; subst; clear H
  | H : occurs_t _ _ _ (_ _ _) |- _ => inversion H; subst; clear H
  | H : occurs_t _ _ _ (_ _ _ _) |- _ => inversion H; subst; clear H
  | H : at_period _ _ _ (_ _) |- _ => inversion H; subst; clear H
  | H : at_period _ _ _ (_ _ _) |- _ => inversion H; subst; clear H
  | H : at_period _ _ _ (_ _ _ _) |- _ => inversion H; subst; clear H
  end.
Lemma omodel_nodup : NoDup (oendog ++ ostoch).
Proof. repeat constructor; cbn; intuition discriminate. Qed.
Lemma omodel_clash : no_clash (option Z) oendog ostoch oparams.
Proof. names_differ. Qed.
Lemma omodel_regular : regular_model (option Z) oendog omodel.
Proof.
  split.
  - intros x Hx; exists 0%Z; cbn [oendog In] in Hx; destruct Hx as [<-|[<-|[<-|[]]]].
    + exists oeq1; split; [left; reflexivity|apply P_binl; constructor].
    + exists oeq2; split; [right; left; reflexivity|apply P_binl; constructor].
    + exists oeq3; split; [right; right; left; reflexivity|apply P_binl; constructor].
  - intros x k e Hx He Hp; cbn [omodel In] in He; destruct He as [<-|[<-|[<-|[]]]]; unfold oeq1, oeq2, oeq3 in Hp; invert_tree; lia.
Qed.
Lemma omodel_wf : Forall (fun e => well_formed (option Z) e /\ declared (option Z) oendog ostoch oparams e /\ offsets (option Z) e) omodel.
Proof.
  repeat (apply Forall_cons || apply Forall_nil).
  all: split; [split; [exact I|split; [cbn; tauto|cbn [functions oeq1 oeq2 oeq3]; repeat apply conj; try exact I; apply mem_In; reflexivity]]|].
  all: split; [split; intros|intros x k H]; unfold oeq1, oeq2, oeq3 in *; invert_tree; try (cbn; tauto); auto.
Qed.
Example C28_nonvacuous :
  exists m, build (option Z) oendog ostoch omodel oparams = Ok m /\
    signature (option Z) oendog omodel [(1, (-1)%Z); (0, (0)%Z); (1, (0)%Z); (2, (0)%Z); (0, (1)%Z)] /\
    dynamic_call (option Z) OZ (Some 0%Z) m [Some 7; Some 50; Some 9; Some (-2); Some 10; Some 4]%Z =
      Ok [Some (50 - 3 * 10); Some (9 - (7 + 2)); Some (-2 - 7 * 4)]%Z.
Proof.
  eexists; split; [vm_compute; reflexivity|]; split; [|vm_compute; reflexivity].
  destruct (C28_dynamic_residuals_partial (option Z) OZ (Some 0%Z) oendog ostoch omodel oparams omodel_nodup omodel_clash omodel_regular omodel_wf) as (m & l & Hm & Hs & _).
  destruct (set_total (option Z) oendog omodel) as (lls & El); [apply Forall_impl with (2 := omodel_wf); intros e ((_ & H & _) & _); exact H|].
  pose proof (signature_timed (option Z) oendog omodel lls omodel_regular El) as G.
  vm_compute in El; injection El as <-; exact G.
Qed.

(** Failing cases.  A variable called like another one with a lag: x and xm1; the
    equation x = x(-1) + xm1 at x = 1, x(-1) = 1, xm1 = 0 reads the wrong value. *)
Definition clash_eqs : list (ast (option Z)) :=
  [Bin BSub (Var "x") (Bin BAdd (PVar "x" (-1)) (Var "xm1")); Bin BSub (Var "xm1") (Num (Some 5%Z))]%string.
Theorem C28_clash_refuted :
  exists m a v, build (option Z) ["x"; "xm1"]%string [] clash_eqs [] = Ok m /\
    signature (option Z) ["x"; "xm1"]%string clash_eqs [(0, (-1)%Z); (0, (0)%Z); (1, (0)%Z)] /\ List.length a = 3 /\
    dynamic_call (option Z) OZ (Some 0%Z) m a = Ok v /\
    ~ Forall2 (value (option Z) OZ (plain (option Z) ["x"; "xm1"]%string [] [] [(0, (-1)%Z); (0, (0)%Z); (1, (0)%Z)] a [])
        (at_time (option Z) ["x"; "xm1"]%string [(0, (-1)%Z); (0, (0)%Z); (1, (0)%Z)] a)) clash_eqs v.
Proof.
  eexists _, [Some 1; Some 1; Some 0]%Z, _; split; [vm_compute; reflexivity|]; split; [|split; [reflexivity|split; [vm_compute; reflexivity|]]].
  - split.
    + intros i k; split.
      * intros H; cbn [In] in H; destruct H as [H|[H|[H|[]]]]; injection H as <- <-.
        -- exists "x"%string; eexists; split; [reflexivity|]; split; [left; reflexivity|apply P_binr, P_binl; constructor].
        -- exists "x"%string; eexists; split; [reflexivity|]; split; [left; reflexivity|apply P_binl; constructor].
        -- exists "xm1"%string; eexists; split; [reflexivity|]; split; [left; reflexivity|apply P_binr, P_binr; constructor].
      * intros (x & e & Hi & He & Hp); destruct i as [|[|i]]; cbn [nth_error] in Hi; try (destruct i; discriminate); injection Hi as <-;
          cbn [clash_eqs In] in He; destruct He as [<-|[<-|[]]]; invert_tree; cbn [In]; tauto.
    + intros p q a b Hpq Ha Hb; destruct p as [|[|[|p]]], q as [|[|[|q]]]; cbn [nth_error] in Ha, Hb; try lia; try (destruct p; discriminate); try (destruct q; discriminate);
        injection Ha as <-; injection Hb as <-; unfold before; cbn [fst snd]; lia.
  - intros H; inversion H as [|e v es vs H1 _]; subst; clear H; inversion H1 as [| | | |o l r v v' w Hl Hr Ho| |]; subst; clear H1.
    inversion Hl as [|x w Hx| | | | |]; subst; clear Hl; inversion Hr as [| | | |o l r v2 v3 w Hl2 Hr2 Ho2| |]; subst; clear Hr.
    inversion Hl2 as [| |x k w Ht| | | |]; subst; clear Hl2; inversion Hr2 as [|x w Hy| | | | |]; subst; clear Hr2.
    destruct Ht as (i & j & Hi & Hj & Hv).
    unfold plain in Hx, Hy; cbn [lookup] in Hx, Hy.
    destruct Hx as [(i1 & j1 & Hi1 & Hj1 & Hv1)|(s & Hs & _)]; [|destruct s; discriminate].
    destruct Hy as [(i2 & j2 & Hi2 & Hj2 & Hv2)|(s & Hs & _)]; [|destruct s; discriminate].
    destruct i as [|[|i]]; cbn [nth_error] in Hi; try discriminate Hi; [|destruct i; discriminate].
    destruct i1 as [|[|i1]]; cbn [nth_error] in Hi1; try discriminate Hi1; [|destruct i1; discriminate].
    destruct i2 as [|[|i2]]; cbn [nth_error] in Hi2; try discriminate Hi2; [|destruct i2; discriminate].
    destruct j as [|[|[|j]]]; cbn [nth_error] in Hj; try discriminate Hj; [|destruct j; discriminate].
    destruct j1 as [|[|[|j1]]]; cbn [nth_error] in Hj1; try discriminate Hj1; [|destruct j1; discriminate].
    destruct j2 as [|[|[|j2]]]; cbn [nth_error] in Hj2; try discriminate Hj2; [|destruct j2; discriminate].
    cbn [nth_error] in *; injection Hv as <-; injection Hv1 as <-; injection Hv2 as <-; vm_compute in Ho2; injection Ho2 as <-; vm_compute in Ho; discriminate.
Qed.
Print Assumptions C28_clash_refuted.

(** The offset zero: in x(0) = 2 x(-1) the left side is read at the previous date. *)
Definition zero_eqs : list (ast (option Z)) := [Bin BSub (PVar "x" 0) (Bin BMul (Num (Some 2%Z)) (PVar "x" (-1)))]%string.
Theorem C28_offset_zero_refuted :
  exists m, build (option Z) ["x"]%string [] zero_eqs [] = Ok m /\
    forall lag now, dynamic_call (option Z) OZ (Some 0%Z) m [Some lag; Some now] = Ok [Some (lag - 2 * lag)%Z].
Proof.
  eexists; split; [vm_compute; reflexivity|]; intros lag now; reflexivity.
Qed.
Print Assumptions C28_offset_zero_refuted.

(** ** C29: at the stacked steady state with zero shocks the dynamic equations are the
    steady equations, and these compute the residuals with every date at the steady
    state. *)
Theorem C29_dynamic_at_steady_state_partial :
  forall (V : Type) (O : ops V) (zero : V) (endog stoch : list string) (exprs : list (ast V)) (params : list (string * V)),
    NoDup (endog ++ stoch) -> no_clash V endog stoch params -> regular_model V endog exprs ->
    Forall (fun e => well_formed V e /\ declared V endog stoch params e /\ offsets V e /\ forall x k, occurs_t V x k e -> In x endog) exprs ->
    (forall x, In x endog -> lookup x params = None) ->
    exists m, build V endog stoch exprs params = Ok m /\
      forall ss, List.length ss = List.length endog ->
        dynamic_call V O zero m (steady_point V zero m ss) = steady_call V O zero m ss /\
        forall vs, steady_call V O zero m ss = Ok vs <->
          Forall2 (value V O (steady_plain V endog stoch params zero ss) (fun x _ => steady_plain V endog stoch params zero ss x)) exprs vs.
Proof.
  intros V O zero endog stoch exprs params Nd Nc R W Dj.
  assert (Ne : NoDup endog).
  { clear - Nd; induction endog as [|y l IH]; [constructor|]; cbn [app] in Nd; apply NoDup_cons_iff in Nd as [H1 H2]; constructor; [|exact (IH H2)].
    intros G; apply H1, in_app_iff; left; exact G. }
  assert (Ha : Forall (algebraic V) exprs) by (apply Forall_impl with (2 := W); intros e ((_ & H & _) & _); exact H).
  destruct (build_ok V endog exprs stoch params Ne R Ha) as (m & E & E1 & E2 & E3 & E4 & lls & El & Ei).
  exists m; split; [exact E|]; intros ss Ls.
  assert (L : List.length endog = List.length (map snd lls)) by (rewrite map_length; symmetry; exact (lls_length V endog exprs lls El)).
  destruct (signature_timed V endog exprs lls R El) as [Sg _].
  unfold dynamic_call, steady_call, steady_point; rewrite E1, E2, E3, E4, Ei, timed_vars_length, (dyn_vars_names _ _ _ _ L), (stacked_array V zero endog stoch _ L ss Ls).
  rewrite Ls, Nat.eqb_refl; split.
  - rewrite app_length, repeat_length; unfold stacked_endog at 1; rewrite map_length, Nat.eqb_refl.
    apply mapM_res_ext; intros e He; destruct (proj1 (Forall_forall _ _) W e He) as ((Weq & Wa & Wf) & Wd & Wo & Wt).
    apply dynamic_steady; try assumption; intros x i k Hp Hi; apply Sg; exists x, e; auto.
  - intros vs; rewrite mapM_ok.
    assert (G : forall l vs, Forall (fun e => well_formed V e /\ declared V endog stoch params e /\ offsets V e /\ forall x k, occurs_t V x k e -> In x endog) l ->
      (Forall2 (fun e v => steady_func V O zero e endog params ss = Ok v) l vs <->
       Forall2 (value V O (steady_plain V endog stoch params zero ss) (fun x _ => steady_plain V endog stoch params zero ss x)) l vs)).
    { clear - Nd Ls; intros l vs Hl; revert vs; induction Hl as [|e l ((He & Ha & Hf) & Hd & _) Hl IH]; intros vs; split; intros H; inversion H; subst; constructor;
        try (apply IH; assumption); apply (steady_value V O zero endog stoch params Nd ss Ls); assumption. }
    apply G; exact W.
Qed.
Print Assumptions C29_dynamic_at_steady_state_partial.

Example C29_nonvacuous :
  Forall (fun e => well_formed (option Z) e /\ declared (option Z) oendog ostoch oparams e /\ offsets (option Z) e /\ forall x k, occurs_t (option Z) x k e -> In x oendog) omodel /\
  (forall x, In x oendog -> lookup x oparams = None) /\
  exists m, build (option Z) oendog ostoch omodel oparams = Ok m /\
    steady_point (option Z) (Some 0%Z) m [Some 2; Some 5; Some (-1)]%Z = [Some 5; Some 2; Some 5; Some (-1); Some 2; Some 0]%Z /\
    steady_call (option Z) OZ (Some 0%Z) m [Some 2; Some 5; Some (-1)]%Z = Ok [Some (-4); Some (-1); Some (-1)]%Z.
Proof.
  split; [|split].
  - pose proof omodel_wf as W; assert (T : Forall (fun e => forall x k, occurs_t (option Z) x k e -> In x oendog) omodel).
    { repeat (apply Forall_cons || apply Forall_nil); intros x k H; unfold oeq1, oeq2, oeq3 in H; invert_tree; cbn; tauto. }
    apply Forall_forall; intros e He; destruct (proj1 (Forall_forall _ _) W e He) as (A & B & C); pose proof (proj1 (Forall_forall _ _) T e He); tauto.
  - intros x Hx; cbn [oendog In] in Hx; destruct Hx as [<-|[<-|[<-|[]]]]; reflexivity.
  - eexists; split; [vm_compute; reflexivity|]; split; vm_compute; reflexivity.
Qed.

(** Without the restriction on timed names the two differ: a lagged shock is zero in the
    steady equations and an error in the dynamic ones. *)
Theorem C29_lagged_shock_refuted :
  exists m, build (option Z) ["x"]%string ["e"]%string [Bin BSub (Var "x") (PVar "e" (-1))]%string [] = Ok m /\
    steady_call (option Z) OZ (Some 0%Z) m [Some 0%Z] = Ok [Some 0%Z] /\
    dynamic_call (option Z) OZ (Some 0%Z) m (steady_point (option Z) (Some 0%Z) m [Some 0%Z]) = Err KeyErr.
Proof. eexists; split; [vm_compute; reflexivity|]; split; vm_compute; reflexivity. Qed.
Print Assumptions C29_lagged_shock_refuted.

(** ** C27: unsupported offsets.  A model in which a variable occurs at an offset above
    1 or below -4, or below -1 without also occurring at -1 or -4, is rejected: building
    it or evaluating its equations is an error, whatever the arguments.  The other
    offsets below -1 are accepted as if they were -1. *)
Theorem C27_rejected_partial :
  forall (V : Type) (O : ops V) (zero : V) (endog stoch : list string) (exprs : list (ast V)) (params : list (string * V)) x k,
    NoDup (endog ++ stoch) -> no_clash V endog stoch params ->
    Forall (fun e => is_equation V e /\ functions V (fun f => In f reserved_funcs) e) exprs ->
    In x endog -> (exists e, In e exprs /\ at_period V x k e) ->
    (1 < k \/ k < -4 \/ (k < -1 /\ forall e, In e exprs -> ~ at_period V x (-1) e /\ ~ at_period V x (-4) e))%Z ->
    forall m, build V endog stoch exprs params = Ok m -> forall var, exists er, dynamic_call V O zero m var = Err er.
Proof. intros V O zero endog stoch exprs params x k; intros; eapply rejected; eassumption. Qed.
Print Assumptions C27_rejected_partial.

Example C27_nonvacuous :
  let e := Bin BSub (Var "x") (PVar "x" (-2)) : ast (option Z) in
  is_equation (option Z) e /\ (exists e', In e' [e] /\ at_period (option Z) "x" (-2) e') /\
  (forall e', In e' [e] -> ~ at_period (option Z) "x" (-1) e' /\ ~ at_period (option Z) "x" (-4) e') /\
  (exists m, build (option Z) ["x"]%string [] [e] [] = Ok m) /\
  build (option Z) ["x"]%string [] [Bin BSub (Var "x") (PVar "x" 2)]%string ([] : list (string * option Z)) = Err ValueErr.
Proof.
  cbn zeta; split; [exact I|]; split; [|split; [|split]].
  - eexists; split; [left; reflexivity|apply P_binr; constructor].
  - intros e' [<-|[]]; split; intros H; invert_tree.
  - eexists; vm_compute; reflexivity.
  - vm_compute; reflexivity.
Qed.

(** x = x(-4) is accepted and evaluated as x = x(-1); x = x(-1) + x(-2) is accepted and
    x(-2) is read as x(-1), with a spurious column. *)
Theorem C27_refuted :
  (exists m m', build (option Z) ["x"]%string [] [Bin BSub (Var "x") (PVar "x" (-4))]%string [] = Ok m /\
     build (option Z) ["x"]%string [] [Bin BSub (Var "x") (PVar "x" (-1))]%string [] = Ok m' /\
     r_index (option Z) m = r_index (option Z) m' /\
     forall a b, dynamic_call (option Z) OZ (Some 0%Z) m [Some a; Some b] = Ok [Some (b - a)%Z] /\
                 dynamic_call (option Z) OZ (Some 0%Z) m' [Some a; Some b] = Ok [Some (b - a)%Z]) /\
  (exists m, build (option Z) ["x"]%string [] [Bin BSub (Var "x") (Bin BAdd (PVar "x" (-1)) (PVar "x" (-2)))]%string [] = Ok m /\
     forall a b c, dynamic_call (option Z) OZ (Some 0%Z) m [Some a; Some b; Some c] = Ok [Some (b - (a + a))%Z]).
Proof.
  split.
  - eexists _, _; split; [vm_compute; reflexivity|]; split; [vm_compute; reflexivity|]; split; [reflexivity|]; intros a b; split; reflexivity.
  - eexists; split; [vm_compute; reflexivity|]; intros a b c; reflexivity.
Qed.
Print Assumptions C27_refuted.
