(** What a model shows of its variables: model of pynare/core/generic.py:196-202, 311-323,
    372-392 and of pynare/core/variables.py:20-126, 729-776. *)
From Verif Require Import Base Syntax Lexer Parser Eval Semantics Factory Calib Indexing DynFunc Vars ExprList ModelState.

(** ** Arrays of variables *)

(** An object that is put in an array: its attributes [name] and [vtype], if it has them. *)
Record obj := Obj { o_name : option string; o_vtype : option string }.
Record vararray := VArray { a_vtype : string; a_names : list string }.

(** [[v.name for v in self]]: an object without the attribute is a TypeError *)
Definition attr_of (f : obj -> option string) (l : list obj) : res (list string) :=
  mapM (fun o => match f o with Some x => Ok x | None => Err TypeErr end) l.
(** variables.py:22-49 [VarArray]; [vtypes[0]] of no variables is the empty string *)
Definition new_array (l : list obj) : res vararray :=
  do names <- attr_of o_name l;
  do vtypes <- attr_of o_vtype l;
  match vtypes with
  | [] => Ok (VArray "" names)
  | first :: _ => if forallb (String.eqb first) vtypes then Ok (VArray first names) else Err TypeErr
  end.

(** variables.py:73-78 [__contains__]: a name, a variable (by its name), or something else *)
Inductive item := AName (x : string) | AVariable (x : string) | AOther.
Definition contains (a : vararray) (k : item) : bool :=
  match k with AName x | AVariable x => mem x (a_names a) | AOther => false end.

(** [np.where(name == self.names)[0]] *)
Fixpoint positions (x : string) (names : list string) (k : nat) : list nat :=
  match names with
  | [] => []
  | y :: names' => if String.eqb x y then k :: positions x names' (S k) else positions x names' (S k)
  end.
(** variables.py:112-116, 121-126, one name: [loc.item()] of several locations is a
    ValueError, as is putting several locations in one place. *)
Definition get_one (a : vararray) (k : item) : res nat :=
  match k with
  | AName x | AVariable x => match positions x (a_names a) 0 with [] => Err KeyErr | [i] => Ok i | _ => Err ValueErr end
  | AOther => Err KeyErr
  end.
(** variables.py:86-126 [get_loc] of several names *)
Definition get_many (a : vararray) (ks : list item) : res (list nat) := mapM (get_one a) ks.

(** ** Columns by period *)

(** variables.py:747-757, 769-773: the keys that are accepted; others are a ValueError. *)
Inductive pkey := PName (s : string) | PNumber (k : Z).
Definition period_of (k : pkey) : res Z :=
  match k with
  | PName s => match lookup s [("t-1", -1); ("t", 0); ("t+1", 1); ("-1", -1); ("0", 0); ("+1", 1)]%string%Z with
               | Some z => Ok z | None => Err ValueErr
               end
  | PNumber z => if existsb (Z.eqb z) [-1; 0; 1]%Z then Ok z else Err ValueErr
  end.
(** variables.py:767-776 [TimedLLX.__getitem__] *)
Definition timed_at (cls : option nat -> option nat -> option nat -> bool) (x : indexes) (k : pkey) : res (list nat) :=
  do z <- period_of k; timed cls x z.

(** ** Variables by kind *)

Inductive kind := KState | KForward | KPureForward | KBackward | KPureBackward | KMixed | KStatic.
(** The index behind each property, generic.py:373-392. *)
Definition class_of (k : kind) : option nat -> option nat -> option nat -> bool :=
  match k with
  | KState => is_state | KForward => is_forward | KPureForward => is_pure_forward
  | KBackward => is_backward | KPureBackward => is_pure_backward | KMixed => is_mixed | KStatic => is_static
  end.
(** [array[indices]] *)
Definition choose {A} (l : list A) (is : list nat) : res (list A) :=
  mapM (fun i => match nth_error l i with Some a => Ok a | None => Err IndexErr end) is.

Section Views.
  Variable V : Type.
  Variable O : ops V.
  Variable zero : V.
  Variable isnum : V -> bool.
  Variable space_t sol_t : Type.
  Variable space : list (option V) -> steady_repr V -> repr V -> res space_t.
  Notation mstate := (mstate V space_t sol_t).
  Notation definition := (definition V space_t sol_t).

  (** generic.py:372-392: the index is read, which may update the model.  The variables are
      those of the array before the update, whose lead-lag sets are written in place. *)
  Definition kind_vars (k : kind) (m : mstate) : mstate * res (list (evar V)) :=
    match read V O zero isnum space_t sol_t space RIndexes m with
    | (m1, Ok (VIndexes x)) => (m1, choose (d_endog V (definition m1)) (members (class_of k) x))
    | (m1, Ok _) => (m1, Err AttrErr)
    | (m1, Err e) => (m1, Err e)
    end.

  (** generic.py:196-202, 311-319: None becomes nan in an array of floats, and is None here. *)
  Definition initial (m : mstate) : list (option V) := map ev_init (d_endog V (definition m)).
  Definition terminal (m : mstate) : list (option V) := map ev_term (d_endog V (definition m)).
  Definition historical (m : mstate) : list (option V) := map ev_hist (d_endog V (definition m)).
  (** generic.py:321-323 *)
  Definition exog (m : mstate) : list string :=
    map sv_name (d_stoch V (definition m)) ++ map dv_name (d_determ V (definition m)).
End Views.
