(** Shared vocabulary of the model: python exceptions as values. *)
From Coq Require Export Ascii String.
From Coq Require Export List Bool Arith ZArith Lia.
Export ListNotations.
Close Scope string_scope.
Open Scope list_scope.

(** The exceptions raised by the modelled code.  [Hang] stands for a python
    loop that never ends; [OutOfFuel] is the model's own error and is excluded
    by theorems. *)
Inductive exn : Type :=
| SyntaxErr        (* builtin SyntaxError *)
| PynareSyntaxErr  (* errors/__init__.py:23-29 *)
| ValueErr
| TypeErr
| NameErr
| UnboundErr       (* UnboundLocalError, a NameError *)
| KeyErr
| IndexErr
| OverflowErr
| AttrErr
| NotImplErr
| GenericErr       (* a bare Exception *)
| EndogIndexErr    (* errors/__init__.py:55-58 *)
| CalibErr (n : nat) (* errors/__init__.py:69-74 *)
| ModelIdErr (k : string) (* errors/__init__.py:33-51 *)
| Hang
| OutOfFuel.

Inductive res (A : Type) : Type :=
| Ok (a : A)
| Err (e : exn).
Arguments Ok {A} a.
Arguments Err {A} e.

Definition bind {A B} (r : res A) (f : A -> res B) : res B :=
  match r with Ok a => f a | Err e => Err e end.

Declare Scope res_scope.
Delimit Scope res_scope with res.
Notation "'do' x <- r ; k" := (bind r (fun x => k))
  (at level 200, x pattern, r at level 100, k at level 200) : res_scope.
Open Scope res_scope.

Definition is_ok {A} (r : res A) : bool :=
  match r with Ok _ => true | Err _ => false end.

(** Sequential evaluation of a list, stopping at the first exception. *)
Fixpoint mapM {A B} (f : A -> res B) (l : list A) : res (list B) :=
  match l with
  | [] => Ok []
  | a :: l' => do b <- f a; do bs <- mapM f l'; Ok (b :: bs)
  end.

(** python dictionaries with string keys: association lists in insertion
    order, keys unique; assignment to an existing key keeps its position. *)
Fixpoint lookup {A} (k : string) (d : list (string * A)) : option A :=
  match d with
  | [] => None
  | (k', v) :: d' => if String.eqb k k' then Some v else lookup k d'
  end.

Fixpoint update {A} (k : string) (v : A) (d : list (string * A)) : list (string * A) :=
  match d with
  | [] => [(k, v)]
  | (k', v') :: d' => if String.eqb k k' then (k', v) :: d' else (k', v') :: update k v d'
  end.

Fixpoint delete {A} (k : string) (d : list (string * A)) : list (string * A) :=
  match d with
  | [] => []
  | (k', v') :: d' => if String.eqb k k' then d' else (k', v') :: delete k d'
  end.

Definition keys {A} (d : list (string * A)) : list string := map fst d.

Definition mem (k : string) (l : list string) : bool := existsb (String.eqb k) l.

Lemma mem_In k l : mem k l = true <-> In k l.
Proof.
  unfold mem; rewrite existsb_exists; split.
  - intros (x & Hx & He); apply String.eqb_eq in He; subst; exact Hx.
  - intros H; exists k; split; [exact H | apply String.eqb_refl].
Qed.

Lemma mem_false k l : mem k l = false <-> ~ In k l.
Proof.
  rewrite <- mem_In; destruct (mem k l); split; intros H; try congruence;
    try (exfalso; apply H; reflexivity); intros H'; congruence.
Qed.

Lemma lookup_update_eq {A} k (v : A) d : lookup k (update k v d) = Some v.
Proof.
  induction d as [|[k' v'] d IH]; cbn [update lookup].
  - rewrite String.eqb_refl; reflexivity.
  - destruct (String.eqb k k') eqn:E; cbn [lookup]; rewrite E; auto.
Qed.

Lemma lookup_update_ne {A} k k2 (v : A) d :
  k <> k2 -> lookup k2 (update k v d) = lookup k2 d.
Proof.
  intros N; induction d as [|[k' v'] d IH]; cbn [update lookup].
  - destruct (String.eqb_spec k2 k); [congruence | reflexivity].
  - destruct (String.eqb_spec k k') as [->|Hk]; cbn [lookup].
    + destruct (String.eqb_spec k2 k'); [congruence | reflexivity].
    + destruct (String.eqb k2 k'); auto.
Qed.

Lemma lookup_update {A} k k2 (v : A) d :
  lookup k2 (update k v d) = if String.eqb k2 k then Some v else lookup k2 d.
Proof.
  destruct (String.eqb_spec k2 k) as [->|N].
  - apply lookup_update_eq.
  - apply lookup_update_ne; congruence.
Qed.

Lemma keys_update {A} k (v : A) d :
  keys (update k v d) = if mem k (keys d) then keys d else keys d ++ [k].
Proof.
  induction d as [|[k' v'] d IH]; cbn [update keys map fst mem existsb]; [reflexivity|].
  destruct (String.eqb k k') eqn:E; cbn [keys map fst orb]; [reflexivity|].
  unfold keys in IH; rewrite IH.
  unfold mem; destruct (existsb (String.eqb k) (map fst d)); reflexivity.
Qed.

Lemma lookup_None {A} k (d : list (string * A)) : lookup k d = None <-> ~ In k (keys d).
Proof.
  induction d as [|[k' v'] d IH]; cbn [lookup keys map fst In].
  - tauto.
  - destruct (String.eqb_spec k k') as [->|N].
    + split; [discriminate|]; intros H; exfalso; apply H; auto.
    + rewrite IH; unfold keys; firstorder congruence.
Qed.

Lemma lookup_Some_In {A} k (v : A) d : lookup k d = Some v -> In (k, v) d.
Proof.
  induction d as [|[k' v'] d IH]; cbn [lookup In]; [discriminate|].
  destruct (String.eqb_spec k k') as [->|N]; intros H.
  - left; congruence.
  - right; auto.
Qed.

Lemma lookup_In {A} k (v : A) d :
  NoDup (keys d) -> In (k, v) d -> lookup k d = Some v.
Proof.
  induction d as [|[k' v'] d IH]; cbn [lookup In keys map fst]; intros ND H; [contradiction|].
  inversion ND as [|? ? Hni ND']; subst.
  destruct H as [H|H].
  - injection H as -> ->; rewrite String.eqb_refl; reflexivity.
  - destruct (String.eqb_spec k k') as [->|N]; [|auto].
    exfalso; apply Hni; apply in_map_iff; exists (k', v); auto.
Qed.

Lemma lookup_key {A} k (d : list (string * A)) : In k (keys d) -> exists v, lookup k d = Some v.
Proof.
  intros H; destruct (lookup k d) as [v|] eqn:E; [eauto|].
  apply lookup_None in E; contradiction.
Qed.

Lemma NoDup_keys_update {A} k (v : A) d : NoDup (keys d) -> NoDup (keys (update k v d)).
Proof.
  intros H; rewrite keys_update; destruct (mem k (keys d)) eqn:E; [exact H|].
  apply mem_false in E.
  apply NoDup_rev in H; rewrite <- (rev_involutive (keys d)).
  change [k] with (rev [k]); rewrite <- rev_app_distr; apply NoDup_rev.
  cbn [rev app]; constructor; [rewrite <- in_rev; exact E | exact H].
Qed.

Lemma bind_ok {A B} (r : res A) (f : A -> res B) b :
  bind r f = Ok b -> exists a, r = Ok a /\ f a = Ok b.
Proof. destruct r; cbn; [eauto | discriminate]. Qed.

Lemma mapM_ok {A B} (f : A -> res B) l bs :
  mapM f l = Ok bs <-> Forall2 (fun a b => f a = Ok b) l bs.
Proof.
  revert bs; induction l as [|a l IH]; intros bs; cbn [mapM].
  - split; intros H; [injection H as <-; constructor | inversion H; reflexivity].
  - split.
    + intros H; apply bind_ok in H as (b & Hb & H); apply bind_ok in H as (bs' & Hbs & H).
      injection H as <-; constructor; [exact Hb | apply IH; exact Hbs].
    + intros H; inversion H as [|? b ? bs' Hb Hbs]; subst.
      rewrite Hb; cbn; apply IH in Hbs; rewrite Hbs; reflexivity.
Qed.

Ltac inv H := inversion H; subst; clear H.
