(** From a model file to a model outline: model of pynare/parsing/factory.py. *)
From Verif Require Import Base Syntax Lexer Parser Eval Semantics.

Section Factory.
  Variable V : Type.
  Variable O : ops V.
  Variable two : V.          (* the integer 2 of [moment ** 2] *)

  (** factory.py:395-423: the moments of one shock (a dictionary with up to four keys). *)
  Record moments := Moments {
    variance : option V; other : option string; corr : option V; cov : option V
  }.
  Definition no_moments : moments := Moments None None None None.

  (** factory.py:25-46.  Sets of periods are lists without repetition. *)
  Record outline := Outline {
    o_params : list (string * option (ast V));
    o_endo : list string;
    o_lead_lags : list (string * list Z);
    o_stoch : list string;
    o_det : list string;
    o_locals : list (string * V);
    o_exprs : list (ast V);
    o_init : list (string * V);
    o_term : list (string * V);
    o_hist : list (string * V);
    o_shocks : list (string * moments)
  }.
  Definition empty_outline : outline := Outline [] [] [] [] [] [] [] [] [] [] [].

  Definition set_params p (o : outline) := Outline p (o_endo o) (o_lead_lags o) (o_stoch o) (o_det o) (o_locals o) (o_exprs o) (o_init o) (o_term o) (o_hist o) (o_shocks o).
  Definition set_lead_lags l (o : outline) := Outline (o_params o) (o_endo o) l (o_stoch o) (o_det o) (o_locals o) (o_exprs o) (o_init o) (o_term o) (o_hist o) (o_shocks o).

  (** factory.py:64-79, 156-161, 203-217: the four mapped kinds; KeyError otherwise. *)
  Definition declare (o : outline) (d : declaration) : res outline :=
    let (x, k) := d in
    if String.eqb k "parameters" then Ok (set_params (update x None (o_params o)) o)
    else if String.eqb k "varexo" then
      Ok (Outline (o_params o) (o_endo o) (o_lead_lags o) (o_stoch o ++ [x]) (o_det o) (o_locals o) (o_exprs o) (o_init o) (o_term o) (o_hist o) (o_shocks o))
    else if String.eqb k "varexo_det" then
      Ok (Outline (o_params o) (o_endo o) (o_lead_lags o) (o_stoch o) (o_det o ++ [x]) (o_locals o) (o_exprs o) (o_init o) (o_term o) (o_hist o) (o_shocks o))
    else if String.eqb k "var" then
      Ok (Outline (o_params o) (o_endo o ++ [x]) (update x [] (o_lead_lags o)) (o_stoch o) (o_det o) (o_locals o) (o_exprs o) (o_init o) (o_term o) (o_hist o) (o_shocks o))
    else Err KeyErr.

  (** The two memories (factory.py:178-181): symbols of the file scope and of the
      model scope that encloses it. *)
  Record memory := Memory { file_mem : list (string * V); model_mem : list (string * V) }.
  Definition file_scope (m : memory) : scope V := SMem [file_mem m; model_mem m].

  (** factory.py:220-252 *)
  Definition assign (om : outline * memory) (a : assignment V) : res (outline * memory) :=
    let (o, m) := om in
    let (x, e) := a in
    do v <- evaluate V O (file_scope m) e;
    if mem x (keys (o_params o))
    then Ok (set_params (update x (Some e) (o_params o)) o,
             Memory (file_mem m) (update x v (model_mem m)))
    else Ok (o, Memory (update x v (file_mem m)) (model_mem m)).

  (** Adding to a set. *)
  Definition set_add (k : Z) (l : list Z) : list Z := if existsb (Z.eqb k) l then l else l ++ [k].

  (** factory.py:326-344: a period of a variable, if the variable is endogenous. *)
  Definition record (x : string) (k : Z) (l : list (string * list Z)) : list (string * list Z) :=
    match lookup x l with Some ps => update x (set_add k ps) l | None => l end.

  (** factory.py:315-347 *)
  Fixpoint record_periods (e : ast V) (l : list (string * list Z)) : res (list (string * list Z)) :=
    match e with
    | Num _ => Ok l
    | Var x => Ok (record x 0%Z l)
    | PVar x k => Ok (record x k l)
    | Un _ e => record_periods e l
    | Bin _ a b => do l' <- record_periods a l; record_periods b l'
    | Fun _ e => record_periods e l
    | Comp _ _ _ => Err GenericErr
    end.

  (** factory.py:271-307.  [loc] are the symbols of the scope pushed for the block
      (factory.py:258-268) over the model scope; file-level variables are not in it. *)
  Definition model_stmt (mm : list (string * V)) (ol : outline * list (string * V)) (st : statement V)
    : res (outline * list (string * V)) :=
    let (o, loc) := ol in
    match st with
    | SLocal x e =>
        do v <- evaluate V O (SMem [loc; mm]) e;
        Ok (Outline (o_params o) (o_endo o) (o_lead_lags o) (o_stoch o) (o_det o) (update x v (o_locals o)) (o_exprs o) (o_init o) (o_term o) (o_hist o) (o_shocks o),
            update x v loc)
    | SEq _ l r =>
        let e := Bin BSub l r in
        do ll <- record_periods e (o_lead_lags o);
        Ok (Outline (o_params o) (o_endo o) ll (o_stoch o) (o_det o) (o_locals o) (o_exprs o ++ [e]) (o_init o) (o_term o) (o_hist o) (o_shocks o),
            loc)
    end.

  (** factory.py:371-385 *)
  Definition bound_values (m : memory) (l : list (assignment V)) : res (list (string * V)) :=
    foldM (fun d (a : assignment V) => do v <- evaluate V O (file_scope m) (snd a); Ok (update (fst a) v d)) [] l.

  (** factory.py:357-368.  The historical values are computed and then the terminal
      ones are stored (line 367); [end_values] is unbound without an endval block. *)
  Definition boundaries (m : memory) (a : actions V) (o : outline) : res outline :=
    do o1 <- match a_initval a with
             | None => Ok (o_init o)
             | Some (_, l) => bound_values m l
             end;
    do o2 <- match a_endval a with
             | None => Ok (o_term o)
             | Some (_, l) => bound_values m l
             end;
    do o3 <- match a_histval a with
             | None => Ok (o_hist o)
             | Some (_, l) =>
                 do _ <- bound_values m l;
                 match a_endval a with Some _ => Ok o2 | None => Err UnboundErr end
             end;
    Ok (Outline (o_params o) (o_endo o) (o_lead_lags o) (o_stoch o) (o_det o) (o_locals o) (o_exprs o) o1 o2 o3 (o_shocks o)).

  (** factory.py:388-425 *)
  Definition shock_moment (m : memory) (d : list (string * moments)) (h : shock V)
    : res (list (string * moments)) :=
    let get x := match lookup x d with Some s => s | None => no_moments end in
    match h with
    | ShVar x e =>
        do v <- evaluate V O (file_scope m) e;
        let s := get x in Ok (update x (Moments (Some v) (other s) (corr s) (cov s)) d)
    | ShStd x e =>
        do v <- evaluate V O (file_scope m) e;
        do v2 <- o_bin O BPow v two;
        let s := get x in Ok (update x (Moments (Some v2) (other s) (corr s) (cov s)) d)
    | ShCorr x y e =>
        do v <- evaluate V O (file_scope m) e;
        let s := get x in Ok (update x (Moments (variance s) (Some y) (Some v) (cov s)) d)
    | ShCov x y e =>
        do v <- evaluate V O (file_scope m) e;
        let s := get x in Ok (update x (Moments (variance s) (Some y) (corr s) (Some v)) d)
    | ShDet _ _ _ => Err AttrErr
    end.

  (** factory.py:352-354 *)
  Definition model_actions (m : memory) (a : actions V) (o : outline) : res outline :=
    do o1 <- boundaries m a o;
    match a_shocks a with
    | None => Err GenericErr
    | Some (_, l) =>
        do d <- foldM (shock_moment m) [] l;
        Ok (Outline (o_params o1) (o_endo o1) (o_lead_lags o1) (o_stoch o1) (o_det o1) (o_locals o1) (o_exprs o1) (o_init o1) (o_term o1) (o_hist o1) d)
    end.

  (** factory.py:163-192: check, then visit the preamble, the model and the rest. *)
  Definition create_outline (f : modfile V) : res outline :=
    do _ <- verify V f;
    do o1 <- foldM declare empty_outline (m_decls f);
    do om <- foldM assign (o1, Memory [] []) (m_params f);
    do ol <- foldM (model_stmt (model_mem (snd om))) (fst om, []) (m_stmts f);
    model_actions (snd om) (m_actions f) (fst ol).

  (** api.py:12-32 [read_model] *)
  Definition read_model (float_of : text -> option V) (trunc : V -> option Z) (nzero : V) (t : text)
    : res outline :=
    do f <- parse_file V float_of trunc nzero t; create_outline f.

  (** factory.py:89-93 [ModelOutline.model_scope]: local names over parameters; a
      parameter is a tree or None, a local a value. *)
  Definition outline_scope (o : outline) : list (string * (option (ast V) + V)) :=
    fold_left (fun d p => update (fst p) (inr (snd p)) d) (o_locals o)
      (map (fun p => (fst p, inl (snd p))) (o_params o)).
End Factory.
