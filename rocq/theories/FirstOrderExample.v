(** Routines for concrete cases: they look for the answer in a list, and check it, so that
    they keep what numpy and scipy promise. *)
From Verif Require Import Base Nd NdProofs NdInst Mat MatProofs SimSpec FirstOrder FirstOrderSpec.
From Coq Require Import ZArith QArith Qcanon.
Local Open Scope list_scope.
Local Open Scope nat_scope.

Definition qlt (x y : Qc) : bool := negb (Qle_bool y x).
Lemma qlt_le x y : qlt x y = false <-> Qcle y x.
Proof. unfold qlt, Qcle; rewrite negb_false_iff; apply Qle_bool_iff. Qed.
Lemma qlt_true x y : qlt x y = true -> ~ Qcle y x.
Proof. intros H G; apply qlt_le in G; congruence. Qed.
Lemma qlt_not x y : ~ Qcle y x -> qlt x y = true.
Proof. intros H; destruct (qlt x y) eqn:E; [reflexivity|apply qlt_le in E; contradiction]. Qed.

Definition table := list (list Qc).
Definition mx (l : table) : mat Qc := fun i j => nth j (nth i l []) (Q2Qc 0).
Definition agree (n m : nat) (A B : mat Qc) : bool := forallb (fun i => forallb (fun j => same (A i j) (B i j)) (seq 0 m)) (seq 0 n).
Lemma agree_eq n m A B : agree n m A B = true -> forall i j, i < n -> j < m -> A i j = B i j.
Proof.
  intros H i j Hi Hj; unfold agree in H; rewrite forallb_forall in H; specialize (H i ltac:(apply in_seq; lia)).
  rewrite forallb_forall in H; apply same_eq, H, in_seq; lia.
Qed.
Local Notation mul n := (mmul Qc QO n).
Local Notation one := (mid Qc QO).
Local Notation tr := (mtr Qc).

Definition inv_with (c : list table) (n : nat) (A : mat Qc) : res (mat Qc) :=
  match find (fun B => agree n n (mul n A (mx B)) one && agree n n (mul n (mx B) A) one) c with Some B => Ok (mx B) | None => Err GenericErr end.
Lemma inv_with_ok c : inverse_routine Qc QO (inv_with c).
Proof.
  intros n A B H i j Hi Hj; unfold inv_with in H; destruct (find _ c) as [B'|] eqn:E; [|discriminate H]; injection H as <-.
  apply find_some in E as [_ E]; apply andb_true_iff in E as [E1 E2]; split; [apply (agree_eq _ _ _ _ E1 i j Hi Hj)|apply (agree_eq _ _ _ _ E2 i j Hi Hj)].
Qed.
Definition solve_with (c : list table) (n k : nat) (A B : mat Qc) : res (mat Qc) :=
  match find (fun X => agree n k (mul n A (mx X)) B) c with Some X => Ok (mx X) | None => Err GenericErr end.
Lemma solve_with_ok c : linear_routine Qc QO (solve_with c).
Proof.
  intros n k A B X H i j Hi Hj; unfold solve_with in H; destruct (find _ c) as [X'|] eqn:E; [|discriminate H]; injection H as <-.
  apply find_some in E as [_ E]; apply (agree_eq _ _ _ _ E i j Hi Hj).
Qed.
Definition orth (n : nat) (Q : mat Qc) : bool := agree n n (mul n (tr Q) Q) one && agree n n (mul n Q (tr Q)) one.
Lemma orth_ok n Q : orth n Q = true -> orthogonal Qc QO n Q.
Proof. intros H; apply andb_true_iff in H as [A B]; split; intros i j Hi Hj; [apply (agree_eq _ _ _ _ A i j Hi Hj)|apply (agree_eq _ _ _ _ B i j Hi Hj)]. Qed.
Definition lower (d n m : nat) (A : mat Qc) : bool := agree n m (fun i j => if j + d <? i then A i j else Q2Qc 0) (fun _ _ => Q2Qc 0).
Lemma lower_ok d n m A : lower d n m A = true -> forall i j, i < n -> j < m -> j + d < i -> A i j = r0 QO.
Proof. intros H i j Hi Hj G; pose proof (agree_eq _ _ _ _ H i j Hi Hj) as E; cbv beta in E; rewrite (proj2 (Nat.ltb_lt (j + d) i) G) in E; exact E. Qed.
Definition qr_with (c : list (table * table)) (n s : nat) (A : mat Qc) : res (mat Qc * mat Qc) :=
  match find (fun QR => orth n (mx (fst QR)) && agree n s (mul n (mx (fst QR)) (mx (snd QR))) A && lower 0 n s (mx (snd QR))) c with
  | Some QR => Ok (mx (fst QR), mx (snd QR)) | None => Err GenericErr end.
Lemma qr_with_ok c : qr_routine Qc QO (qr_with c).
Proof.
  intros n s A Q R H; unfold qr_with in H; destruct (find _ c) as [[q r]|] eqn:E; [|discriminate H]; cbn [fst snd] in H; injection H as <- <-.
  apply find_some in E as [_ E]; cbn [fst snd] in E; apply andb_true_iff in E as [E E3]; apply andb_true_iff in E as [E1 E2].
  split; [apply orth_ok, E1|]; split; [intros i j Hi Hj; apply (agree_eq _ _ _ _ E2 i j Hi Hj)|].
  intros i j Hi Hj G; apply (lower_ok _ _ _ _ E3 i j Hi Hj); lia.
Qed.

Definition is_inside (e : cnum Qc) : bool := match e with Fin re im => qlt (re * re + im * im)%Qc 1%Qc | _ => false end.
Lemma is_inside_ok e : is_inside e = true <-> inside_circle Qc QO Qcle e.
Proof. destruct e as [re im| |]; cbn; [|split; [discriminate|tauto]|split; [discriminate|tauto]]. split; [apply qlt_true|apply qlt_not]. Qed.
Definition is_root (s t : Qc) (e : cnum Qc) : bool :=
  match e with
  | Fin re im => same im 0%Qc && same (t * re)%Qc s
  | Inf => same t 0%Qc && negb (same s 0%Qc)
  | Nan => same t 0%Qc && same s 0%Qc
  end.
Lemma is_root_ok s t e : is_root s t e = true -> root_of Qc QO s t e.
Proof.
  destruct e; cbn [is_root root_of]; intros H; apply andb_true_iff in H as [A B]; split; try (apply same_eq; assumption).
  apply same_neq; apply negb_true_iff; exact B.
Qed.
Definition is_pair (S T : mat Qc) (j : nat) (e e' : cnum Qc) : bool :=
  match e, e' with
  | Fin re im, Fin re' im' =>
      let d := (T j j * T (Datatypes.S j) (Datatypes.S j))%Qc in
      same re' re && same im' (- im)%Qc && qlt 0%Qc im &&
      same ((re + re) * d + S (Datatypes.S j) j * T j (Datatypes.S j))%Qc (S j j * T (Datatypes.S j) (Datatypes.S j) + S (Datatypes.S j) (Datatypes.S j) * T j j)%Qc &&
      same ((re * re + im * im) * d + S j (Datatypes.S j) * S (Datatypes.S j) j)%Qc (S j j * S (Datatypes.S j) (Datatypes.S j))%Qc
  | _, _ => false
  end.
Lemma is_pair_ok S T j e e' : is_pair S T j e e' = true -> pair_of Qc QO Qcle S T j e e'.
Proof.
  destruct e as [re im| |], e' as [re' im'| |]; try discriminate; cbn [is_pair]; intros H.
  repeat (apply andb_true_iff in H as [H ?]); apply same_eq in H; repeat match goal with G : same _ _ = true |- _ => apply same_eq in G end; subst.
  exists re, im; split; [reflexivity|]; split; [reflexivity|]; split; [apply qlt_true; assumption|]; split; assumption.
Qed.
Record factors := Factors { t_S : table; t_T : table; t_eig : list (cnum Qc); t_Q : table; t_Z : table }.
Definition as_schur (t : factors) : schur Qc := Schur (mx (t_S t)) (mx (t_T t)) (t_eig t) (mx (t_Q t)) (mx (t_Z t)).
Definition below (S : mat Qc) (n j : nat) : bool := (Datatypes.S j <? n) && negb (same (S (Datatypes.S j) j) 0%Qc).
Definition alone (S : mat Qc) (n j : nat) : bool := negb (below S n j) && negb (match j with 0 => false | Datatypes.S i => below S n i end).
Definition check (n : nat) (A B : mat Qc) (t : factors) : bool :=
  let S := mx (t_S t) in let T := mx (t_T t) in let Q := mx (t_Q t) in let Z := mx (t_Z t) in let e := t_eig t in
  orth n Q && orth n Z &&
  agree n n (fun i j => rsum Qc QO n (fun k => rsum Qc QO n (fun l => Q i k * S k l * Z j l)%Qc)) A &&
  agree n n (fun i j => rsum Qc QO n (fun k => rsum Qc QO n (fun l => Q i k * T k l * Z j l)%Qc)) B &&
  lower 0 n n T && lower 1 n n S && (List.length e =? n) &&
  forallb (fun j => if alone S n j then is_root (S j j) (T j j) (nth j e Nan) else true) (seq 0 n) &&
  forallb (fun j => if below S n j then is_pair S T j (nth j e Nan) (nth (Datatypes.S j) e Nan) else true) (seq 0 n) &&
  existsb (fun k => forallb (fun i => if i <? k then is_inside (nth i e Nan) else negb (is_inside (nth i e Nan))) (seq 0 n)) (seq 0 (Datatypes.S n)).
Lemma check_ok n A B t : check n A B t = true -> schur_form Qc QO Qcle n A B (as_schur t).
Proof.
  intros H; unfold check in H; cbv zeta in H.
  apply andb_true_iff in H as [H Hk]; apply andb_true_iff in H as [H H2]; apply andb_true_iff in H as [H H1]; apply andb_true_iff in H as [H Hl].
  apply andb_true_iff in H as [H HS]; apply andb_true_iff in H as [H HT]; apply andb_true_iff in H as [H HB]; apply andb_true_iff in H as [H HA]; apply andb_true_iff in H as [HQ HZ].
  rewrite forallb_forall in H1, H2; apply existsb_exists in Hk as (k & Ik & Hk); rewrite forallb_forall in Hk; apply in_seq in Ik.
  constructor; cbn [q_S q_T q_eig q_Q q_Z as_schur].
  - apply orth_ok, HQ.
  - apply orth_ok, HZ.
  - intros i j Hi Hj; apply (agree_eq _ _ _ _ HA i j Hi Hj).
  - intros i j Hi Hj; apply (agree_eq _ _ _ _ HB i j Hi Hj).
  - intros i j Hi Hj; apply (lower_ok _ _ _ _ HT i j); lia.
  - intros i j Hi Hj; apply (lower_ok _ _ _ _ HS i j); lia.
  - apply Nat.eqb_eq, Hl.
  - intros j Hj G1 G2; specialize (H1 j ltac:(apply in_seq; lia)).
    assert (E : alone (mx (t_S t)) n j = true).
    { unfold alone; apply andb_true_iff; split; apply negb_true_iff.
      - unfold below; destruct (Nat.ltb_spec (S j) n) as [L|L]; [|reflexivity]; rewrite (G1 L); reflexivity.
      - destruct j as [|i]; [reflexivity|]; unfold below; rewrite (G2 i eq_refl); destruct (S i <? n); reflexivity. }
    rewrite E in H1; apply is_root_ok, H1.
  - intros j Hj G; specialize (H2 j ltac:(apply in_seq; lia)).
    assert (E : below (mx (t_S t)) n j = true).
    { unfold below; apply andb_true_iff; split; [apply Nat.ltb_lt, Hj|]; apply negb_true_iff.
      destruct (same _ _) eqn:E; [apply same_eq in E; exfalso; apply G; exact E|reflexivity]. }
    rewrite E in H2; apply is_pair_ok, H2.
  - exists k; split; [lia|]; split; intros i Hi; specialize (Hk i ltac:(apply in_seq; lia)).
    + rewrite (proj2 (Nat.ltb_lt i k) Hi) in Hk; apply is_inside_ok, Hk.
    + rewrite (proj2 (Nat.ltb_ge i k) (proj1 Hi)) in Hk; intros G; apply is_inside_ok in G; rewrite G in Hk; discriminate Hk.
Qed.
Definition qz_with (c : list factors) (n : nat) (A B : mat Qc) : res (schur Qc) :=
  match find (check n A B) c with Some t => Ok (as_schur t) | None => Err GenericErr end.
Lemma qz_with_ok c : schur_routine Qc QO Qcle (qz_with c).
Proof.
  intros n A B q H; unfold qz_with in H; destruct (find _ c) as [t|] eqn:E; [|discriminate H]; injection H as <-.
  apply find_some in E as [_ E]; apply check_ok, E.
Qed.
Definition rank_all (n s : nat) (R : mat Qc) : nat := s.
