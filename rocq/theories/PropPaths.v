(** Properties C87 and C88: reading a model from a path, and printing its equations. *)
From Verif Require Import Base Syntax Lexer Parser Eval Semantics Factory Calib Indexing DynFunc Vars ExprList ModelState PropFile PropParser
  Paths PathsSpec PathsProofs ExampleTexts.

(** ** C87: reading a model from a path *)

(** A string gives a model exactly when a text is found and that text makes a model: the text
    of the file at that path, or, if there is no such file, that of the example the path
    means.  The model has the name of the file. *)
Theorem C87_reads :
  forall (V : Type) (O : ops V) (two zero one nzero : V) (truthy : V -> bool) (float_of : text -> option V) (trunc : V -> option Z)
    (parse_text : text -> res (ast V)) (space_t sol_t : Type) (space : list (option V) -> steady_repr V -> repr V -> res space_t)
    (fs : text -> fileres) (p name : text) (m : mstate V space_t sol_t),
    from_path V O two zero one nzero truthy float_of trunc parse_text space_t sol_t space fs "dynare" (PStr p) = inl (name, m) <->
    file_name p name /\
    exists t o, (fs p = FText t \/ fs p = FMissing /\ exists q, means_example p q /\ fs (chars q) = FText t) /\
      read_model V O two float_of trunc nzero t = Ok o /\
      new_model V O zero one truthy float_of trunc parse_text space_t sol_t space (outline_args V o) = Ok m.
Proof.
  intros V O two zero one nzero truthy fo tr pt space_t sol_t space fs p name m.
  assert (B : forall t, (match (do n <- name_of (PStr p); do o <- model_outline V O two nzero fo tr "dynare" t;
                 do m <- new_model V O zero one truthy fo tr pt space_t sol_t space (outline_args V o); Ok (n, m))
              with Ok r => inl r | Err e => inr (Raised e) end) = inl (name, m) <->
            file_name p name /\ exists o, read_model V O two fo tr nzero t = Ok o /\
              new_model V O zero one truthy fo tr pt space_t sol_t space (outline_args V o) = Ok m).
  { intros t; rewrite <- name_spec; unfold model_outline; cbn [String.eqb Ascii.eqb Bool.eqb]; destruct (name_of (PStr p)) as [n|e]; cbn [bind].
    - destruct (read_model V O two fo tr nzero t) as [o|e]; cbn [bind].
      + destruct (new_model V O zero one truthy fo tr pt space_t sol_t space (outline_args V o)) as [m'|e] eqn:Em; cbn [bind].
        * split; [intros X; injection X as <- <-; eauto|intros (X & o' & Y & Z); injection X as <-; injection Y as <-; congruence].
        * split; [discriminate|intros (_ & o' & Y & Z); injection Y as <-; congruence].
      + split; [discriminate|intros (_ & o' & Y & _); discriminate Y].
    - split; [discriminate|intros (X & _); discriminate X]. }
  unfold from_path, definition_of; cbn [path_text]; destruct (fs p) as [t| | |] eqn:Ef.
  - rewrite B; split.
    + intros (N & o & H); split; [exact N|]; exists t, o; auto.
    + intros (N & t' & o & [X|(X & _)] & H); [injection X as <-|discriminate X]; split; [exact N|]; exists o; exact H.
  - destruct (get_example (PStr p)) as [q|e] eqn:Eg.
    + assert (G := Eg); apply get_example_ok in G.
      assert (U : forall q', means_example p q' -> q' = q) by (intros q' H; apply get_example_ok in H; congruence).
      destruct (fs (chars q)) as [t| | |] eqn:Eq.
      1:{ rewrite B; split.
        - intros (N & o & H); split; [exact N|]; exists t, o; split; [right; split; [reflexivity|exists q; auto]|exact H].
        - intros (N & t' & o & [X|(_ & q' & X & Y)] & H); [discriminate X|]; rewrite (U _ X), Eq in Y; injection Y as <-; split; [exact N|exists o; exact H]. }
      all: split; [discriminate|intros (N & t' & o & [X|(_ & q' & X & Y)] & H); [discriminate X|]; rewrite (U _ X), Eq in Y; discriminate Y].
    + destruct (get_example_err _ _ Eg) as (-> & G); split; [discriminate|].
      intros (N & t' & o & [X|(_ & q' & X & Y)] & H); [discriminate X|destruct (G _ X)].
  - split; [discriminate|intros (N & t' & o & [X|(X & _)] & H); discriminate X].
  - split; [discriminate|intros (N & t' & o & [X|(X & _)] & H); discriminate X].
Qed.
Print Assumptions C87_reads.

(** A path has one name, and at most one example. *)
Theorem C87_names :
  forall p, (exists! n, file_name p n) /\ (forall q q', means_example p q -> means_example p q' -> q = q') /\
    forall name q, In (name, q) examples -> means_example (chars name) q /\ forall suffix, means_example (chars name ++ "."%char :: suffix) q.
Proof.
  intros p; split; [|split].
  - destruct (name_of (PStr p)) as [n|] eqn:E; [|discriminate E]; exists n; split; [apply name_spec; exact E|].
    intros n' H; apply name_spec in H; congruence.
  - intros q q' H H'; apply get_example_ok in H; apply get_example_ok in H'; congruence.
  - intros name q H; assert (L : lacks "." (chars name)) by (apply registry_spec in H; apply dotless_lacks, (registry_dotless _ q); exact H).
    split; [exists name; split; [exact H|]; split; [exact L|exists []; rewrite app_nil_r; auto]|].
    intros suffix; exists name; split; [exact H|]; split; [exact L|exists ("."%char :: suffix); eauto].
Qed.
Print Assumptions C87_names.

(** When FileNotFoundError is raised, and for which path: there is no file at [p], and it
    means no example, or the file of its example is not text; or that file is missing
    (paths of examples are relative to the working directory). *)
Theorem C87_not_found :
  forall (V : Type) (O : ops V) (two zero one nzero : V) (truthy : V -> bool) (float_of : text -> option V) (trunc : V -> option Z)
    (parse_text : text -> res (ast V)) (space_t sol_t : Type) (space : list (option V) -> steady_repr V -> repr V -> res space_t)
    (fs : text -> fileres) (language : string) (p q : text),
    from_path V O two zero one nzero truthy float_of trunc parse_text space_t sol_t space fs language (PStr p) = inr (NotFound q) <->
    fs p = FMissing /\
    (q = p /\ (forall e, ~ means_example p e) \/
     q = p /\ (exists e, means_example p e /\ fs (chars e) = FDecode) \/
     exists e, means_example p e /\ q = chars e /\ fs q = FMissing).
Proof.
  intros V O two zero one nzero truthy fo tr pt space_t sol_t space fs lang p q.
  assert (B : forall t, (match (do n <- name_of (PStr p); do o <- model_outline V O two nzero fo tr lang t;
                 do m <- new_model V O zero one truthy fo tr pt space_t sol_t space (outline_args V o); Ok (n, m))
              with Ok r => inl r | Err e => inr (Raised e) end) <> inr (NotFound q)).
  { intros t; match goal with |- (match ?x with _ => _ end) <> _ => destruct x end; discriminate. }
  unfold from_path, definition_of; cbn [path_text]; destruct (fs p) as [t| | |] eqn:Ef.
  - split; [intros X; destruct (B _ X)|intros (X & _); discriminate X].
  - destruct (get_example (PStr p)) as [e|e] eqn:Eg.
    + assert (G := Eg); apply get_example_ok in G.
      assert (U : forall q', means_example p q' -> q' = e) by (intros q' H; apply get_example_ok in H; congruence).
      destruct (fs (chars e)) as [t| | |] eqn:Eq.
      * split; [intros X; destruct (B _ X)|].
        intros (_ & [(_ & X)|[(_ & e' & X & Y)|(e' & X & Y & Z)]]); [destruct (X _ G)| |]; apply U in X; subst; congruence.
      * split; [intros X; injection X as <-; split; [reflexivity|right; right; exists e; auto]|].
        intros (_ & [(_ & X)|[(_ & e' & X & Y)|(e' & X & Y & Z)]]); [destruct (X _ G)| |]; apply U in X; subst; congruence.
      * split; [intros X; injection X as <-; split; [reflexivity|right; left; split; [reflexivity|exists e; auto]]|].
        intros (_ & [(_ & X)|[(-> & e' & X & Y)|(e' & X & Y & Z)]]); [destruct (X _ G)| |apply U in X; subst; congruence]; reflexivity.
      * split; [discriminate|].
        intros (_ & [(_ & X)|[(_ & e' & X & Y)|(e' & X & Y & Z)]]); [destruct (X _ G)| |]; apply U in X; subst; congruence.
    + destruct (get_example_err _ _ Eg) as (-> & G); split; [intros X; injection X as <-; auto|].
      intros (_ & [(-> & _)|[(_ & e' & X & Y)|(e' & X & Y & Z)]]); [reflexivity|destruct (G _ X)|destruct (G _ X)].
  - split; [discriminate|intros (X & _); discriminate X].
  - split; [discriminate|intros (X & _); discriminate X].
Qed.
Print Assumptions C87_not_found.

(** The documented argument types are str and Path; no Path ever gives a model: with a
    file that can be read, or none, the result is an AttributeError. *)
Theorem C87_objects_refuted :
  forall (V : Type) (O : ops V) (two zero one nzero : V) (truthy : V -> bool) (float_of : text -> option V) (trunc : V -> option Z)
    (parse_text : text -> res (ast V)) (space_t sol_t : Type) (space : list (option V) -> steady_repr V -> repr V -> res space_t)
    (fs : text -> fileres) (language : string) (p : text),
    let r := from_path V O two zero one nzero truthy float_of trunc parse_text space_t sol_t space fs language (PPath p) in
    (forall x, r <> inl x) /\
    ((exists t, fs p = FText t) \/ fs p = FMissing -> r = inr (Raised AttrErr)).
Proof.
  intros V O two zero one nzero truthy fo tr pt space_t sol_t space fs lang p r; unfold r, from_path, definition_of; cbn [path_text get_example name_of bind].
  destruct (fs p) as [t| | |]; split; try discriminate; try (intros _; reflexivity); intros [(t & X)|X]; discriminate X.
Qed.
Print Assumptions C87_objects_refuted.

(** A language other than dynare is refused once the file has been read. *)
Theorem C87_language :
  forall (V : Type) (O : ops V) (two zero one nzero : V) (truthy : V -> bool) (float_of : text -> option V) (trunc : V -> option Z)
    (parse_text : text -> res (ast V)) (space_t sol_t : Type) (space : list (option V) -> steady_repr V -> repr V -> res space_t)
    (fs : text -> fileres) (language : string) (p t : text),
    language <> "dynare"%string -> fs p = FText t ->
    from_path V O two zero one nzero truthy float_of trunc parse_text space_t sol_t space fs language (PStr p) = inr (Raised NotImplErr).
Proof.
  intros V O two zero one nzero truthy fo tr pt space_t sol_t space fs lang p t N E; unfold from_path, definition_of, model_outline; cbn [path_text].
  rewrite E; apply String.eqb_neq in N; rewrite N; destruct (name_of (PStr p)) as [n|e] eqn:En; [reflexivity|discriminate En].
Qed.
Print Assumptions C87_language.

(** The shipped examples, with numbers kept as they are written: four of them make models,
    and the registered examples simple_linear (no shocks block) and optim_ck (a command
    after the blocks) cannot be read. *)
Inductive sym := SNone | SLit (t : text) | SBin (o : bop) (a b : sym) | SUn (o : uop) (a : sym) | SCmp (o : cop) (a b : sym) | SFun (f : string) (a : sym).
Definition sym_ops : ops sym := Ops sym SNone (fun v => match v with SNone => true | _ => false end)
  (fun o a b => Ok (SBin o a b)) (fun o a => Ok (SUn o a)) (fun o a b => Ok (SCmp o a b)) (fun f a => Ok (SFun f a)).
Definition sym_int (v : sym) : option Z :=
  match v with SLit t => dec_of t | SUn UNeg (SLit t) => option_map Z.opp (dec_of t) | _ => None end.
Definition lit (s : string) : sym := SLit (chars s).
Definition sym_from (fs : text -> fileres) (p : string) : (text * mstate sym unit unit) + perr :=
  from_path sym sym_ops (lit "2") (lit "0") (lit "1") (lit "0") (fun _ => true) (fun t => Some (SLit t)) sym_int (fun _ => Err SyntaxErr)
    unit unit (fun _ _ _ => Ok tt) fs "dynare" (PStr (chars p)).
Definition shipped (fs : text -> fileres) : Prop :=
  fs (chars "pynare/examples/pynare/simple_rbc.mod") = FText (chars simple_rbc_text) /\
  fs (chars "pynare/examples/pynare/simple_linear.mod") = FText (chars simple_linear_text) /\
  fs (chars "pynare/examples/pynare/optim_ck.mod") = FText (chars optim_ck_text) /\
  fs (chars "pynare/examples/pynare/basic_nk.mod") = FText (chars basic_nk_text) /\
  fs (chars "pynare/examples/pynare/four_eq_nk.txt") = FText (chars four_eq_nk_text) /\
  fs (chars "pynare/examples/pynare/herbst_schorfheide.txt") = FText (chars herbst_schorfheide_text).
Local Open Scope string_scope.
Definition has (r : (text * mstate sym unit unit) + perr) (name : string) (endog stoch : list string) (equations : nat) : Prop :=
  exists m, r = inl (chars name, m) /\ let d := definition sym unit unit m in
    map ev_name (d_endog sym d) = endog /\ map sv_name (d_stoch sym d) = stoch /\ List.length (trees (d_exprs sym d)) = equations.
Theorem C87_shipped_refuted :
  forall fs : text -> fileres, shipped fs ->
    (forall e, In e ["simple_rbc"; "simple_linear"; "optim_ck"; "basic_nk"; "four_eq_nk.mod"; "herbst_schorfheide"]%string -> fs (chars e) = FMissing) ->
    has (sym_from fs "simple_rbc") "simple_rbc" ["c"; "k"] ["x"] 2 /\
    has (sym_from fs "basic_nk") "basic_nk" ["n"; "rr"; "a"; "y"; "c"; "w"; "mu"; "r"; "pie"] ["ea"] 9 /\
    has (sym_from fs "four_eq_nk.mod") "four_eq_nk" ["r"; "infl"; "y"; "yp"; "qe"; "theta"; "x"; "rn"] ["e_a"; "e_theta"; "e_qe"; "e_r"] 8 /\
    has (sym_from fs "herbst_schorfheide") "herbst_schorfheide" ["y"; "pi"; "r"; "g"; "z"] ["e_r"; "e_g"; "e_z"] 5 /\
    sym_from fs "simple_linear" = inr (Raised GenericErr) /\
    sym_from fs "optim_ck" = inr (Raised NotImplErr).
Proof.
  intros fs (S1 & S2 & S3 & S4 & S5 & S6) Hm.
  assert (R : forall p q t, fs (chars p) = FMissing -> get_example (PStr (chars p)) = Ok q -> fs (chars q) = FText t ->
    sym_from fs p = sym_from (fun _ => FText t) p).
  { intros p q t A B C; unfold sym_from, from_path, definition_of; cbn [path_text]; rewrite A, B, C; reflexivity. }
  unfold has; repeat match goal with |- _ /\ _ => split end.
  - rewrite (R "simple_rbc" _ _ (Hm "simple_rbc" ltac:(cbn; tauto)) eq_refl S1); vm_compute; eexists; repeat split.
  - rewrite (R "basic_nk" _ _ (Hm "basic_nk" ltac:(cbn; tauto)) eq_refl S4); vm_compute; eexists; repeat split.
  - rewrite (R "four_eq_nk.mod" _ _ (Hm "four_eq_nk.mod" ltac:(cbn; tauto)) eq_refl S5); vm_compute; eexists; repeat split.
  - rewrite (R "herbst_schorfheide" _ _ (Hm "herbst_schorfheide" ltac:(cbn; tauto)) eq_refl S6); vm_compute; eexists; repeat split.
  - rewrite (R "simple_linear" _ _ (Hm "simple_linear" ltac:(cbn; tauto)) eq_refl S2); vm_compute; reflexivity.
  - rewrite (R "optim_ck" _ _ (Hm "optim_ck" ltac:(cbn; tauto)) eq_refl S3); vm_compute; reflexivity.
Qed.
Print Assumptions C87_shipped_refuted.

(** A file system with the examples, one other model file and a file that is not text. *)
Definition ex_fs (p : text) : fileres :=
  let q := str p in
  if String.eqb q "pynare/examples/pynare/simple_rbc.mod" then FText (chars simple_rbc_text)
  else if String.eqb q "pynare/examples/pynare/simple_linear.mod" then FText (chars simple_linear_text)
  else if String.eqb q "pynare/examples/pynare/optim_ck.mod" then FText (chars optim_ck_text)
  else if String.eqb q "pynare/examples/pynare/basic_nk.mod" then FText (chars basic_nk_text)
  else if String.eqb q "pynare/examples/pynare/four_eq_nk.txt" then FText (chars four_eq_nk_text)
  else if String.eqb q "pynare/examples/pynare/herbst_schorfheide.txt" then FText (chars herbst_schorfheide_text)
  else if String.eqb q "my.models/rbc.v2.mod" then FText (chars simple_rbc_text)
  else if String.eqb q "picture.mod" then FDecode
  else FMissing.
Example C87_nonvacuous :
  shipped ex_fs /\
  has (sym_from ex_fs "my.models/rbc.v2.mod") "rbc" ["c"; "k"] ["x"] 2 /\
  file_name (chars "my.models/rbc.v2.mod") (chars "rbc") /\
  sym_from ex_fs "picture.mod" = inr DecodeErr /\
  sym_from ex_fs "models/basic_nk.mod" = inr (NotFound (chars "models/basic_nk.mod")) /\
  sym_from (fun _ => FMissing) "basic_nk" = inr (NotFound (chars "pynare/examples/pynare/basic_nk.mod")) /\
  sym_from (fun p => if String.eqb (str p) "basic_nk" then FMissing else FDecode) "basic_nk" = inr (NotFound (chars "basic_nk")).
Proof.
  split; [repeat split; vm_compute; reflexivity|]; split; [unfold has; vm_compute; eexists; repeat split|].
  split; [apply name_spec; vm_compute; reflexivity|].
  repeat split; vm_compute; reflexivity.
Qed.

Local Close Scope string_scope.

(** ** C88: printing the equations of a model *)

(** Equations can be printed exactly when there is at least one and each was given as a text
    with one sign '='; every equation is a line, in order, with its two sides.  Otherwise the
    result is a ValueError. *)
Theorem C88_print :
  forall (V : Type) (x : mexprs V),
    (forall out, exprs_str x = Ok out <->
       exists ps, ps <> [] /\ Forall2 (fun t p => sides t (fst p) (snd p)) (texts x) ps /\ print_of ps out) /\
    (forall e, exprs_str x = Err e -> e = ValueErr).
Proof. intros V x; split; [intros out; apply print_ok|apply print_err]. Qed.
Print Assumptions C88_print.

(** Equations given as texts, as a list: these are the texts that are printed. *)
Theorem C88_given :
  forall (V : Type) (parse_text : text -> res (ast V)) (ts : list text) (x : mexprs V),
    new_exprs V parse_text false (map GText ts) = Ok x ->
    ((exists out, exprs_str x = Ok out) <-> ts <> [] /\ forall t, In t ts -> exists l r, sides t l r) /\
    forall out, exprs_str x = Ok out -> exists ps, Forall2 (fun t p => sides t (fst p) (snd p)) ts ps /\ print_of ps out.
Proof.
  intros V pt ts x H.
  assert (E : texts x = ts).
  { unfold new_exprs in H; destruct (mapM _ _); [|discriminate H]; injection H as <-; cbn [texts]; rewrite map_map; apply map_id. }
  split; [|intros out; rewrite print_ok, E; intros (ps & _ & S & P); eauto]; split.
  - intros (out & P); apply print_ok in P as (ps & Np & S & _); rewrite E in S; split.
    + intros ->; inversion S; congruence.
    + intros t Ht; clear - S Ht; induction S as [|a p ts ps Sp _ IH]; [destruct Ht|]; destruct Ht as [<-|Ht]; [exists (fst p), (snd p); exact Sp|auto].
  - intros (Nt & H1).
    assert (C : exists ps, Forall2 (fun t p => sides t (fst p) (snd p)) ts ps).
    { clear - H1; induction ts as [|t ts IH]; [exists []; constructor|].
      destruct (IH (fun u h => H1 u (or_intror h))) as (ps & S); destruct (H1 t (or_introl eq_refl)) as (l & r & S1).
      exists ((l, r) :: ps); constructor; assumption. }
    destruct C as (ps & S); assert (Np : ps <> []) by (intros ->; inversion S; congruence).
    assert (W := widest_fold (map fst ps) ltac:(destruct ps; [congruence|discriminate])).
    eexists; apply print_ok; exists ps; split; [exact Np|split; [rewrite E; exact S|constructor; exact W]].
Qed.
Print Assumptions C88_given.

(** The equations of a model that was read from a file can never be printed. *)
Theorem C88_files_refuted :
  forall (V : Type) (O : ops V) (zero one : V) (truthy : V -> bool) (float_of : text -> option V) (trunc : V -> option Z)
    (parse_text : text -> res (ast V)) (space_t sol_t : Type) (space : list (option V) -> steady_repr V -> repr V -> res space_t)
    (o : outline V) (m : mstate V space_t sol_t),
    new_model V O zero one truthy float_of trunc parse_text space_t sol_t space (outline_args V o) = Ok m ->
    exprs_str (d_exprs V (definition V space_t sol_t m)) = Err ValueErr.
Proof.
  intros V O zero one truthy fo tr pt space_t sol_t space o m H.
  destruct (exprs_str (d_exprs V (definition V space_t sol_t m))) as [out|e] eqn:E.
  2:{ f_equal; exact (print_err _ _ E). }
  apply print_ok in E as (ps & Np & S & _); exfalso.
  unfold new_model in H; repeat match type of H with bind ?r _ = Ok _ => let v := fresh "v" in let Ev := fresh "Ev" in destruct r as [v|] eqn:Ev; [|discriminate H]; cbn [bind] in H; cbv zeta in H end.
  injection H as <-; cbn [definition d_exprs] in S.
  match goal with E : make_exprs V pt _ = Ok ?ex |- _ => rename E into Ex; set (x := ex) in * end.
  unfold outline_args in Ex; cbn [g_exprs make_exprs] in Ex; unfold new_exprs in Ex; destruct (mapM _ _) as [l|]; [|discriminate Ex]; injection Ex as Ex.
  rewrite <- Ex in S; cbn [texts] in S; rewrite map_map in S; cbn [text_of] in S.
  destruct (o_exprs V o) as [|e l']; [inversion S; congruence|]; cbn [map] in S; inversion S as [|? ? ? ? (a & b & X & _) _]; destruct a; discriminate X.
Qed.
Print Assumptions C88_files_refuted.

Definition p_text (t : text) : res (ast Z) := Ok (Num 0%Z).
Example C88_nonvacuous :
  (exists x, new_exprs Z p_text false (map GText [chars "c = k(-1)*b"; chars " output=  c + i "]) = Ok x /\
     exprs_str x = Ok (chars ("Model Expressions" ++ String nl "    c      = k(-1)*b" ++ String nl "    output = c + i")%string)) /\
  (exists x, new_exprs Z p_text false (map GText [chars "c - k(-1)*b"]) = Ok x /\ exprs_str x = Err ValueErr) /\
  sides (chars " output=  c + i ") (chars "output") (chars "c + i").
Proof.
  split; [eexists; split; [reflexivity|vm_compute; reflexivity]|]; split; [eexists; split; [reflexivity|vm_compute; reflexivity]|].
  apply two_sides_ok; vm_compute; reflexivity.
Qed.
