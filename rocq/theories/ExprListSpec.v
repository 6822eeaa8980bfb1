(** What a collection of equations is: a list of equations, each a tree that was given
    as such or that was read from a text. *)
From Verif Require Import Base Syntax Lexer Parser ExprList.

Section Spec.
  Variable V : Type.
  Variable parse_text : text -> res (ast V).

  Record equation := Equation { tree : ast V; source : option text }.

  (** The equation that is meant by what is given. *)
  Inductive means : given V -> equation -> Prop :=
  | means_text t e : parse_text t = Ok e -> means (GText t) (Equation e (Some t))
  | means_tree e : means (GTree e) (Equation e None).

  (** A collection holds the equations [l]: the trees in order, and for each its text,
      which is empty for an equation given as a tree. *)
  Definition holds (x : mexprs V) (l : list equation) : Prop :=
    trees x = map tree l /\
    texts x = map (fun q => match source q with Some t => t | None => [] end) l /\
    forall q t, In q l -> source q = Some t -> parse_text t = Ok (tree q).

  (** The position that an index means in a list of length [n]. *)
  Definition denotes (n : nat) (k : Z) (i : nat) : Prop :=
    i < n /\ (k = Z.of_nat i \/ k = (Z.of_nat i - Z.of_nat n)%Z).

  (** What each operation does to a list of equations when it succeeds. *)
  Inductive effect : eop V -> list equation -> list equation -> Prop :=
  | eff_append g q l : means g q -> effect (EAppend g) l (l ++ [q])
  | eff_insert k g q l1 l2 :
      means g q ->
      (* before the equation at position k, counted from the end if negative; indices
         beyond the ends mean the ends *)
      (k = Z.of_nat (List.length l1) \/ k = (- Z.of_nat (List.length l2))%Z /\ l2 <> [] \/
       l2 = [] /\ (Z.of_nat (List.length l1) <= k)%Z \/ l1 = [] /\ (k <= - Z.of_nat (List.length l2))%Z /\ (k < 0)%Z) ->
      effect (EInsert k g) (l1 ++ l2) (l1 ++ q :: l2)
  | eff_extend gs qs l : Forall2 means gs qs -> effect (EExtend gs) l (l ++ qs)
  | eff_set k g q q0 l1 l2 :
      means g q -> denotes (List.length (l1 ++ q0 :: l2)) k (List.length l1) ->
      effect (ESet k g) (l1 ++ q0 :: l2) (l1 ++ q :: l2)
  | eff_del k q0 l1 l2 :
      denotes (List.length (l1 ++ q0 :: l2)) k (List.length l1) ->
      effect (EDel k) (l1 ++ q0 :: l2) (l1 ++ l2)
  | eff_pop k q0 l1 l2 :
      denotes (List.length (l1 ++ q0 :: l2)) k (List.length l1) ->
      effect (EPop k) (l1 ++ q0 :: l2) (l1 ++ l2)
  | eff_del_slice s l :
      effect (EDelSlice s) l (map snd (filter (fun iq => negb (s (List.length l) (fst iq))) (combine (seq 0 (List.length l)) l)))
  | eff_remove p q0 l1 l2 :
      p (tree q0) = true -> Forall (fun q => p (tree q) = false) l1 ->
      effect (ERemove p) (l1 ++ q0 :: l2) (l1 ++ l2)
  | eff_clear l : effect EClear l []
  | eff_reverse l l' :
      (* the texts of the equations that move are lost *)
      map tree l' = rev (map tree l) ->
      (forall i q, nth_error l' i = Some q ->
         if Nat.eqb i (List.length l - i - 1) then nth_error l i = Some q else source q = None) ->
      effect EReverse l l'.
End Spec.
