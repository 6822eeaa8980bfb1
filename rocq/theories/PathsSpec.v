(** What reading a model from a path and printing its equations should do. *)
From Verif Require Import Base Lexer.

Definition lacks (c : ascii) (t : text) : Prop := ~ In c t.

(** [n] is the name of the file at [p]: what is behind the last slash and before the first
    dot after it. *)
Definition file_name (p n : text) : Prop :=
  exists dir suffix, p = dir ++ n ++ suffix /\ lacks "/" n /\ lacks "." n /\
    (dir = [] \/ exists d, dir = d ++ ["/"%char]) /\
    (suffix = [] \/ exists s, suffix = "."%char :: s /\ lacks "/" s).

(** What is before the first dot of [p]. *)
Definition stem (p s : text) : Prop :=
  lacks "." s /\ exists suffix, p = s ++ suffix /\ (suffix = [] \/ exists r, suffix = "."%char :: r).

(** The examples that come with the package. *)
Definition examples : list (string * string) :=
  [("simple_rbc", "pynare/examples/pynare/simple_rbc.mod");
   ("simple_linear", "pynare/examples/pynare/simple_linear.mod");
   ("optim_ck", "pynare/examples/pynare/optim_ck.mod");
   ("basic_nk", "pynare/examples/pynare/basic_nk.mod");
   ("four_eq_nk", "pynare/examples/pynare/four_eq_nk.txt");
   ("herbst_schorfheide", "pynare/examples/pynare/herbst_schorfheide.txt")]%string.
(** The path [p] means the example in the file [q]. *)
Definition means_example (p : text) (q : string) : Prop :=
  exists name, In (name, q) examples /\ stem p (chars name).

(** ** Printed equations *)

Definition white (c : ascii) : Prop :=
  let n := nat_of_ascii c in (9 <= n <= 13 \/ 28 <= n <= 32).
(** [s] is [t] without the white space around it. *)
Definition trimmed (t s : text) : Prop :=
  exists a b, t = a ++ s ++ b /\ Forall white a /\ Forall white b /\
    (forall c s', s = c :: s' -> ~ white c) /\ (forall s' c, s = s' ++ [c] -> ~ white c).

(** The text of an equation has one sign '=', between its two sides. *)
Definition sides (t l r : text) : Prop :=
  exists a b, t = a ++ "="%char :: b /\ lacks "=" a /\ lacks "=" b /\ trimmed a l /\ trimmed b r.

(** A line of the print: the left side is as wide as the widest one. *)
Definition shown_line (w : nat) (l r : text) : text :=
  chars "    " ++ l ++ repeat " "%char (w - List.length l) ++ chars " = " ++ r.
(** [w] is the largest of some lengths. *)
Definition widest (ls : list text) (w : nat) : Prop :=
  (forall l, In l ls -> List.length l <= w) /\ exists l, In l ls /\ List.length l = w.
(** The print of equations whose sides are [ps]. *)
Inductive print_of : list (text * text) -> text -> Prop :=
| print_of_sides ps w : widest (map fst ps) w ->
    print_of ps (chars "Model Expressions" ++ concat (map (fun p => nl :: shown_line w (fst p) (snd p)) ps)).
