(** What a piecewise-linear path is for the equations of its regimes. *)
From Verif Require Import Base Lexer Syntax Eval DynSpec ExprList ModelState ModelStateSpec Nd CalcSpec LinearizeSpec AccuracySpec Occbin OccbinSpec OccbinProofs2.

(** The states are declared with those that have no lead before those that have one. *)
Definition states_in_order {F} (endog : list string) (exprs : list (ast F)) : Prop :=
  forall i j, occurs_at F endog exprs i (-1) -> ~ occurs_at F endog exprs i 1 ->
    occurs_at F endog exprs j (-1) -> occurs_at F endog exprs j 1 -> i < j.

(** No addition was made since the last solution, or since the model was last without one. *)
Definition unaltered_since_solved {F space_t sol_t} (l : outcomes F space_t sol_t) : Prop :=
  exists l0 l1, l = (l0 ++ l1)%list /\ (forall o r, In (o, r) l1 -> ~ addition F o) /\
    ((forall o r, In (o, r) l0 -> addition F o \/ exists what, o = Read what) \/ exists l2 o s, l0 = (l2 ++ [(Solve o, Ok (OSolution s))])%list).

(** The equations [es'] are [es] but for those that a dictionary names, by position. *)
Definition replaced {F} (parse_text : text -> res (ast F)) (kvs : list (Z * given F)) (es es' : list (ast F)) : Prop :=
  List.length es' = List.length es /\
  (forall k g, In (k, g) kvs -> exists e, parse_given F parse_text g = Ok e /\ nth_error es' (Z.to_nat k) = Some e) /\
  (forall i, ~ In (Z.of_nat i) (map fst kvs) -> nth_error es' i = nth_error es i).

Section PiecewiseSimSpec.
  Variable F : Type.
  Variable O : rops F.
  Variable le : F -> F -> Prop.
  Variable P : ops F.

  (** The equations hold to first order around [ss]: the value [r t] of each, when the deviations
      of the three periods from [ss] and the shocks are scaled by [t], is a + b t up to smaller
      terms; at t = 1 the expansion a + b is zero. *)
  Definition holds_linearly (endog stoch : list string) (params : list (string * F)) (exprs : list (ast F)) (ss : list F)
      (before now after u : nat -> F) : Prop :=
    Forall (fun e => exists r a b,
      near F O le (fun t => equation_value F P endog stoch params (level F O ss (fun v => rmul O t (before v)))
        (level F O ss (fun v => rmul O t (now v))) (level F O ss (fun v => rmul O t (after v))) (fun s => rmul O t (u s)) e (r t)) /\
      jet1 F O le r a b /\ radd O a b = r0 O) exprs.

  Variable grad : (list F -> res F) -> list F -> res (list F).
  Variable jacobian : (list F -> res (list F)) -> list F -> res (list (list F)).
  Variable fns : string -> smooth_fun F.
  Variable pows : F -> smooth_fun F.
  (** What is asked of the equations of a regime: they are smooth at the two steady states, and
      their derivatives there are the same. *)
  Definition comparable (endog stoch : list string) (exprs : list (ast F)) (params : list (string * F)) (own ref : list F) : Prop :=
    (forall l, signature F endog exprs l -> differentiates F O le P endog stoch exprs params grad jacobian l) /\
    List.length own = List.length endog /\
    smooth_at F O endog stoch exprs params fns pows own /\ smooth_at F O endog stoch exprs params fns pows ref /\
    (own = ref \/
     forall l e c d, signature F endog exprs l -> In e exprs -> c < List.length l + List.length stoch ->
       partial F O le (residual F P endog stoch params l e) (rest_point F O stoch l own) c d ->
       partial F O le (residual F P endog stoch params l e) (rest_point F O stoch l ref) c d).
End PiecewiseSimSpec.

(** The regime of a period when the last spell of the guess begins at [s]: before that the guess, but
    for the period before, when the alternative is in force; then the reference. *)
Definition in_force (hypo : nat -> bool) (s u : nat) : bool := if S u <? s then hypo u else S u =? s.

(** A path with one constraint, from deviations [x0].  For each shock there is a guess of the periods
    when the alternative is in force and a path [g]; there is no warning exactly when the guess
    agrees with the conditions along [g]; the first row is reported, and for the last shock all rows;
    in each period the equations of the regime in force hold between the rows. *)
Section Path.
  Variable F : Type.
  Variable O : rops F.
  (** The regimes' equations, the conditions. *)
  Variable reference alternative : (nat -> F) -> (nat -> F) -> (nat -> F) -> (nat -> F) -> Prop.
  Variable binds relaxes : (nat -> F) -> bool -> Prop.
  Definition follows_one (ex : exog_index) (shocks : shock_array F) (periods : option nat) (x0 : nat -> F) (rows : list (nat -> F)) (warns : list bool) : Prop :=
    let p := number_of_periods F periods shocks in
    List.length rows = p /\ List.length warns = List.length (shock_rows F shocks) /\
    forall t, t < List.length (shock_rows F shocks) -> exists hypo e g,
      shock_vector F O (positions_of ex) (nth t (shock_rows F shocks) []) e /\
      List.length hypo = S p /\ List.length g = S p /\
      (nth t warns false = false <-> forall u v, nth_error g u = Some v ->
         (binds v true -> nth u hypo false = true) /\ (nth u hypo false = true -> relaxes v false)) /\
      value F x0 rows (S t) = nth 0 g x0 /\
      (S t = List.length (shock_rows F shocks) -> forall u, t + u < p -> value F x0 rows (S (t + u)) = nth u g x0) /\
      exists s, final_spell hypo p s /\ forall u, u < p ->
        (if in_force (fun u => nth u hypo false) s u then alternative else reference)
          (value F (value F x0 rows t) g u) (value F (value F x0 rows t) g (S u)) (value F (value F x0 rows t) g (S (S u))) (impulse F O e u).

  (** With two constraints: the regime is that of the pair guessed; in the period before the last
      spells it is never the reference. *)
  Variable second both : (nat -> F) -> (nat -> F) -> (nat -> F) -> (nat -> F) -> Prop.
  Variable binds1 relaxes1 : (nat -> F) -> bool -> Prop.
  Definition regime_when (c : bool * bool) : (nat -> F) -> (nat -> F) -> (nat -> F) -> (nat -> F) -> Prop :=
    match c with (true, true) => both | (true, false) => alternative | (false, true) => second | (false, false) => reference end.
  Definition regime_before (c : bool * bool) : (nat -> F) -> (nat -> F) -> (nat -> F) -> (nat -> F) -> Prop :=
    match c with (true, true) => both | (true, false) => alternative | _ => second end.
  Definition follows_two (ex : exog_index) (shocks : shock_array F) (periods : option nat) (x0 : nat -> F) (rows : list (nat -> F)) (warns : list bool) : Prop :=
    let p := number_of_periods F periods shocks in
    List.length rows = p /\ List.length warns = List.length (shock_rows F shocks) /\
    forall t, t < List.length (shock_rows F shocks) -> exists hypo e g,
      shock_vector F O (positions_of ex) (nth t (shock_rows F shocks) []) e /\
      List.length hypo = S p /\ List.length g = S p /\
      (nth t warns false = false <-> forall u v h, nth_error g u = Some v -> nth_error hypo u = Some h ->
         (binds v true -> fst h = true) /\ (fst h = true -> relaxes v false) /\
         (binds1 v true -> snd h = true) /\ (snd h = true -> relaxes1 v false)) /\
      value F x0 rows (S t) = nth 0 g x0 /\
      (S t = List.length (shock_rows F shocks) -> forall u, t + u < p -> value F x0 rows (S (t + u)) = nth u g x0) /\
      exists s0 s1, final_spell (map fst hypo) p s0 /\ final_spell (map snd hypo) p s1 /\ let s := Nat.max s0 s1 in forall u, u < p ->
        (if S u <? s then regime_when (nth u hypo (false, false)) else if S u =? s then regime_before (nth (s - 1) hypo (false, false)) else reference)
          (value F (value F x0 rows t) g u) (value F (value F x0 rows t) g (S u)) (value F (value F x0 rows t) g (S (S u))) (impulse F O e u).
End Path.
