(** Reading a model from a path, the registry of examples, and printing the equations of a
    model: model of pynare/io/files.py:9-47, pynare/examples/__init__.py:1-26,
    pynare/core/model.py:65-150 and pynare/core/expressions.py:84-101. *)
From Verif Require Import Base Syntax Lexer Parser Eval Semantics Factory Calib Indexing DynFunc Vars ExprList ModelState.

(** [t.split(c)] for a single character: the pieces between its occurrences. *)
Fixpoint split (c : ascii) (t : text) : list text :=
  match t with
  | [] => [[]]
  | a :: t' =>
      if ceq a c then [] :: split c t'
      else match split c t' with p :: ps => (a :: p) :: ps | [] => [[a]] end
  end.
Definition slash : ascii := "/"%char.
Definition dot : ascii := "."%char.

(** examples/__init__.py:3-10 *)
Definition registry : list (string * string) :=
  [("simple_rbc", "pynare/examples/pynare/simple_rbc.mod");
   ("simple_linear", "pynare/examples/pynare/simple_linear.mod");
   ("optim_ck", "pynare/examples/pynare/optim_ck.mod");
   ("basic_nk", "pynare/examples/pynare/basic_nk.mod");
   ("four_eq_nk", "pynare/examples/pynare/four_eq_nk.txt");
   ("herbst_schorfheide", "pynare/examples/pynare/herbst_schorfheide.txt")]%string.

(** A path is given as a string or as a pathlib.Path with that text. *)
Inductive patharg := PStr (s : text) | PPath (s : text).
Definition path_text (a : patharg) : text := match a with PStr s => s | PPath s => s end.

(** examples/__init__.py:16-26.  A Path is no key of the registry and has no [split]. *)
Definition get_example (a : patharg) : res string :=
  match a with
  | PPath _ => Err AttrErr
  | PStr s =>
      match lookup (str s) registry with
      | Some p => Ok p
      | None => match lookup (str (hd [] (split dot s))) registry with Some p => Ok p | None => Err ValueErr end
      end
  end.

(** What opening and reading a file gives (io/files.py:25-28): a text, FileNotFoundError,
    UnicodeDecodeError, or another error of the operating system. *)
Inductive fileres := FText (t : text) | FMissing | FDecode | FOther.
(** The exceptions of [from_path]; a FileNotFoundError names the path that was not found. *)
Inductive perr := NotFound (p : text) | DecodeErr | OsErr | Raised (e : exn).

Section FromPath.
  Variable V : Type.
  Variable O : ops V.
  Variable two zero one nzero : V.
  Variable truthy : V -> bool.
  Variable float_of : text -> option V.
  Variable trunc : V -> option Z.
  Variable parse_text : text -> res (ast V).
  Variable space_t sol_t : Type.
  Variable space : list (option V) -> steady_repr V -> repr V -> res space_t.
  (** The file system when the model is read; relative paths are relative to the working
      directory. *)
  Variable fs : text -> fileres.

  (** model.py:86-92 with io/files.py:31-47.  UnicodeDecodeError is a ValueError, so that one
      raised for an example is caught in line 91. *)
  Definition definition_of (a : patharg) : text + perr :=
    match fs (path_text a) with
    | FText t => inl t
    | FDecode => inr DecodeErr
    | FOther => inr OsErr
    | FMissing =>
        match get_example a with
        | Err ValueErr => inr (NotFound (path_text a))
        | Err e => inr (Raised e)
        | Ok q =>
            match fs (chars q) with
            | FText t => inl t
            | FMissing => inr (NotFound (chars q))
            | FDecode => inr (NotFound (path_text a))
            | FOther => inr OsErr
            end
        end
    end.

  (** model.py:95-96 *)
  Definition name_of (a : patharg) : res text :=
    match a with
    | PPath _ => Err AttrErr
    | PStr s => Ok (hd [] (split dot (last (split slash s) [])))
    end.

  (** parsing/factory.py:139-148 *)
  Definition model_outline (language : string) (t : text) : res (outline V) :=
    if String.eqb language "dynare" then read_model V O two float_of trunc nzero t else Err NotImplErr.

  (** model.py:98-149 *)
  Definition from_path (language : string) (a : patharg) : (text * mstate V space_t sol_t) + perr :=
    match definition_of a with
    | inr e => inr e
    | inl t =>
        match (do n <- name_of a; do o <- model_outline language t;
               do m <- new_model V O zero one truthy float_of trunc parse_text space_t sol_t space (outline_args V o);
               Ok (n, m)) with
        | Ok r => inl r
        | Err e => inr (Raised e)
        end
    end.
End FromPath.

(** ** Printing equations *)

(** [t.strip()] and [t.ljust(w)] *)
Fixpoint lstrip (t : text) : text := match t with a :: t' => if isspace a then lstrip t' else t | [] => [] end.
Definition strip (t : text) : text := rev (lstrip (rev (lstrip t))).
Definition ljust (w : nat) (t : text) : text := t ++ repeat " "%char (w - List.length t).
(** [sep.join(l)] *)
Fixpoint join (sep : text) (l : list text) : text :=
  match l with [] => [] | [t] => t | t :: l' => t ++ sep ++ join sep l' end.

(** expressions.py:86-89: unpacking more or fewer than two parts is a ValueError. *)
Definition two_sides (t : text) : res (text * text) :=
  match split "="%char t with [l; r] => Ok (strip l, strip r) | _ => Err ValueErr end.

(** expressions.py:84-101 [ModelExprs.__str__]; [max] of nothing is a ValueError. *)
Definition exprs_str {V} (x : mexprs V) : res text :=
  do ps <- mapM two_sides (texts x);
  match ps with
  | [] => Err ValueErr
  | _ =>
      let width := fold_right Nat.max 0 (map (fun p => List.length (fst p)) ps) in
      Ok (join [nl] (chars "Model Expressions" ::
            map (fun p => chars "    " ++ join (chars " = ") [ljust width (fst p); snd p]) ps))
  end.
