(** Limits, derivatives and expansions over an ordered field. *)
From Verif Require Import Base Syntax Nd SimSpec Eval EvalSpec.

Section CalcSpec.
  Variable F : Type.
  Variable O : rops F.
  Variable le : F -> F -> Prop.
  Local Notation "x + y" := (radd O x y).
  Local Notation "x * y" := (rmul O x y).
  Local Notation "- x" := (ropp O x).
  Local Notation "x <= y" := (le x y).
  Local Notation two := (twice_one O).

  Definition positive (x : F) : Prop := r0 O <= x /\ x <> r0 O.
  (** [x] is between [-e] and [e]. *)
  Definition within (e x : F) : Prop := - e <= x /\ x <= e.
  (** A statement holds near zero. *)
  Definition near (P : F -> Prop) : Prop := exists d, positive d /\ forall t, within d t -> P t.
  (** [s t] goes to zero with [t]. *)
  Definition vanishes (s : F -> F) : Prop := forall e, positive e -> near (fun t => within e (s t)).

  (** [f t = a + b t + o(t)] and [f t = a + b t + c t^2 + o(t^2)]. *)
  Definition jet1 (f : F -> F) (a b : F) : Prop :=
    exists s, vanishes s /\ near (fun t => f t = a + b * t + s t * t).
  Definition jet2 (f : F -> F) (a b c : F) : Prop :=
    exists s, vanishes s /\ near (fun t => f t = a + b * t + c * (t * t) + s t * (t * t)).

  (** A function that is smooth on an open domain, with its first two derivatives: it has a
      Taylor expansion to second order at each point of the domain, and so has its
      derivative to first order. *)
  Record smooth_fun := SmoothFun { sf : F -> F; sf1 : F -> F; sf2 : F -> F; sdom : F -> Prop }.
  Definition smooth (h : smooth_fun) : Prop :=
    forall a, sdom h a ->
      near (fun t => sdom h (a + t)) /\
      jet2 (fun t => sf h (a + t)) (sf h a) (sf1 h a) (rdiv O (sf2 h a) two) /\
      jet1 (fun t => sf1 h (a + t)) (sf1 h a) (sf2 h a).

  (** The operators of the expressions are those of the field, a function [g] of the language
      is [fns g], the power with a constant exponent [k] is [pows k], and a power in general is
      [a^b = exp (b log a)]: each within its domain. *)
  Variable P : ops F.
  Variable fns : string -> smooth_fun.
  Variable pows : F -> smooth_fun.
  Record interprets : Prop := Interprets {
    i_pos : forall x, o_un P UPos x = Ok x;
    i_neg : forall x, o_un P UNeg x = Ok (- x);
    i_add : forall x y, o_bin P BAdd x y = Ok (x + y);
    i_sub : forall x y, o_bin P BSub x y = Ok (rsub O x y);
    i_mul : forall x y, o_bin P BMul x y = Ok (x * y);
    i_div : forall x y, y <> r0 O -> o_bin P BDiv x y = Ok (rdiv O x y);
    i_fun : forall g x, sdom (fns g) x -> o_fun P g x = Ok (sf (fns g) x);
    i_pow : forall k x, sdom (pows k) x -> o_bin P BPow x k = Ok (sf (pows k) x);
    i_power : forall a b, sdom (fns "log") a -> sdom (fns "exp") (b * sf (fns "log") a) ->
      o_bin P BPow a b = Ok (sf (fns "exp") (b * sf (fns "log") a));
    i_smooth : forall g, smooth (fns g);
    i_smooth_pow : forall k, smooth (pows k) }.

  (** An expression has a value [v], and every quotient, power and function in it is taken
      within its domain.  [fixed] are the names that stand for constants. *)
  Variable fixed : string -> Prop.
  Definition constant (e : ast F) : Prop := (forall x, occurs F x e -> fixed x) /\ forall x k, ~ occurs_t F x k e.
  Variable rho : string -> F -> Prop.
  Variable rho_t : string -> Z -> F -> Prop.
  Inductive tame : ast F -> F -> Prop :=
  | S_num v : tame (Num v) v
  | S_var x v : rho x v -> tame (Var x) v
  | S_pvar x k v : rho_t x k v -> tame (PVar x k) v
  | S_pos e v : tame e v -> tame (Un UPos e) v
  | S_neg e v : tame e v -> tame (Un UNeg e) (- v)
  | S_add l r v w : tame l v -> tame r w -> tame (Bin BAdd l r) (v + w)
  | S_sub l r v w : tame l v -> tame r w -> tame (Bin BSub l r) (rsub O v w)
  | S_mul l r v w : tame l v -> tame r w -> tame (Bin BMul l r) (v * w)
  | S_div l r v w : tame l v -> tame r w -> w <> r0 O -> tame (Bin BDiv l r) (rdiv O v w)
  | S_pow l r v k : tame l v -> tame r k -> constant r -> sdom (pows k) v -> tame (Bin BPow l r) (sf (pows k) v)
  | S_power l r v w : tame l v -> tame r w -> sdom (fns "log") v -> sdom (fns "exp") (w * sf (fns "log") v) ->
      tame (Bin BPow l r) (sf (fns "exp") (w * sf (fns "log") v))
  | S_fun f g e v : In (f, g) language_functions -> tame e v -> sdom (fns g) v -> tame (Fun f e) (sf (fns g) v).
End CalcSpec.
Arguments SmoothFun {F}. Arguments sf {F}. Arguments sf1 {F}. Arguments sf2 {F}. Arguments sdom {F}.

(** Partial derivatives of a quantity given by a list of arguments; [R y v] says that its
    value at [y] is [v]. *)
Section Partial.
  Variable F : Type.
  Variable O : rops F.
  Variable le : F -> F -> Prop.
  (** The list with [h] added to entry [j]. *)
  Fixpoint bump (x : list F) (j : nat) (h : F) : list F :=
    match x, j with
    | [], _ => []
    | a :: x', 0%nat => radd O a h :: x'
    | a :: x', S j' => a :: bump x' j' h
    end.
  (** [l] is the partial derivative in argument [j] at [x]. *)
  Definition partial (R : list F -> F -> Prop) (x : list F) (j : nat) (l : F) : Prop :=
    exists v s, vanishes F O le s /\
      near F O le (fun h => R (bump x j h) (radd O (radd O v (rmul O l h)) (rmul O (s h) h))).
  (** [l] is the second partial derivative in argument [c] and then [d]: near [x] in direction
      [d] there is a partial derivative in [c], and [l] is its partial derivative in [d]. *)
  Definition partial2 (R : list F -> F -> Prop) (x : list F) (c d : nat) (l : F) : Prop :=
    partial (fun y => partial R y c) x d l.
End Partial.
