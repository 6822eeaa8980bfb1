(** A model with observed variables: specification for C90. *)
From Verif Require Import Base Syntax Lexer Parser Calib Vars ExprList ModelState ModelStateSpec.

Section Spec.
  Variable V : Type.

  (** The model that has, besides the variables and equations of a model, one variable and
      one equation "name = expression" for each observation. *)
  Definition observed_def (eqs : list (string * text)) (d : mdef V) : mdef V :=
    MDef V (m_endog V d ++ map (fun p => (fst p, (None, None, None))) eqs) (m_stoch V d) (m_determ V d) (m_params V d) (m_locals V d)
      (m_exprs V d ++ map (fun p => GText (list_ascii_of_string (fst p) ++ [" "; "="; " "]%char ++ snd p)) eqs).

  Definition adds_variables (o : op V) : Prop := match o with AddEndog _ _ _ _ => True | _ => False end.
End Spec.
