From Verif Require Import Base Syntax Lexer Parser Eval EvalSpec EvalProofs ModFileSpec Semantics SemanticsSpec SemanticsProofs
  Factory FactorySpec FactoryProofs Indexing IndexingSpec IndexingProofs.
From Coq Require Import Permutation Sorted.

(** ** The decision-rule order *)
Lemma perm_classes (a b c d : nat -> bool) l :
  (forall i, In i l -> (a i = true /\ b i = false /\ c i = false /\ d i = false) \/ (a i = false /\ b i = true /\ c i = false /\ d i = false) \/
    (a i = false /\ b i = false /\ c i = true /\ d i = false) \/ (a i = false /\ b i = false /\ c i = false /\ d i = true)) ->
  Permutation (filter a l ++ filter b l ++ filter c l ++ filter d l) l.
Proof.
  induction l as [|i l IH]; intros H; [constructor|].
  assert (P := IH (fun j Hj => H j (or_intror Hj))); cbn [filter].
  destruct (H i (or_introl eq_refl)) as [(-> & -> & -> & ->)|[(-> & -> & -> & ->)|[(-> & -> & -> & ->)|(-> & -> & -> & ->)]]]; cbn [app].
  - constructor; exact P.
  - rewrite <- Permutation_middle; constructor; exact P.
  - rewrite app_assoc, <- Permutation_middle, <- app_assoc; constructor; exact P.
  - rewrite !app_assoc, <- Permutation_middle, <- !app_assoc; constructor; exact P.
Qed.

Definition not_fb (lls : list (list Z)) (i : nat) : bool := at_k lls i (-1) && (negb (at_k lls i 0) || negb (at_k lls i 1)).
Lemma dr_order_array lls ns : dr_order (array lls ns) =
  members_of lls (static lls) ++ members_of lls (not_fb lls) ++ members_of lls (mixed lls) ++ members_of lls (pure_forward lls).
Proof.
  unfold dr_order, members_of; f_equal; [|f_equal; [|f_equal]].
  - apply (members_array is_static (fun m z p => negb m && negb p)); intros [a|] [b|] [c|]; reflexivity.
  - apply (members_array not_forward_back (fun m z p => m && (negb z || negb p))); intros [a|] [b|] [c|]; reflexivity.
  - apply (members_array is_mixed (fun m z p => m && p)); intros [a|] [b|] [c|]; reflexivity.
  - apply (members_array is_pure_forward (fun m z p => negb m && p)); intros [a|] [b|] [c|]; reflexivity.
Qed.
Definition mixed_occur (lls : list (list Z)) : Prop := forall i, i < List.length lls -> mixed lls i = true -> at_k lls i 0 = true.
Lemma not_fb_pure lls : mixed_occur lls -> members_of lls (not_fb lls) = members_of lls (pure_backward lls).
Proof.
  intros H; apply filter_ext_in; intros i Hi; apply in_seq in Hi; specialize (H i ltac:(lia)); unfold not_fb, pure_backward, mixed in *.
  destruct (at_k lls i (-1)), (at_k lls i 1), (at_k lls i 0); cbn in *; auto; discriminate (H eq_refl).
Qed.
Lemma order_perm lls : Permutation (members_of lls (static lls) ++ members_of lls (pure_backward lls) ++ members_of lls (mixed lls) ++ members_of lls (pure_forward lls))
  (seq 0 (List.length lls)).
Proof.
  apply perm_classes; intros i _; unfold static, pure_backward, mixed, pure_forward.
  destruct (at_k lls i (-1)), (at_k lls i 1); cbn; tauto.
Qed.
Lemma NoDup_app_not {A} (l l' : list A) x : NoDup (l ++ l') -> In x l -> In x l' -> False.
Proof.
  induction l as [|a l IH]; intros H H1 H2; [contradiction|]; cbn [app] in H; apply NoDup_cons_iff in H as [Ha H].
  destruct H1 as [<-|H1]; [apply Ha, in_app_iff; right; exact H2|exact (IH H H1 H2)].
Qed.
Lemma NoDup_app_r {A} (l l' : list A) : NoDup (l ++ l') -> NoDup l'.
Proof. induction l as [|a l IH]; intros H; [exact H|]; cbn [app] in H; apply NoDup_cons_iff in H as [_ H]; exact (IH H). Qed.
Lemma dr_order_perm_iff lls ns : Permutation (dr_order (array lls ns)) (seq 0 (List.length lls)) <-> mixed_occur lls.
Proof.
  rewrite dr_order_array; split.
  - intros P i Hi Hm; destruct (at_k lls i 0) eqn:E; [reflexivity|exfalso].
    assert (Hs : In i (seq 0 (List.length lls))) by (apply in_seq; lia).
    assert (H1 : In i (members_of lls (not_fb lls))).
    { apply filter_In; split; [exact Hs|]; unfold not_fb, mixed in *; rewrite E; apply andb_true_iff in Hm as [-> _]; reflexivity. }
    assert (H2 : In i (members_of lls (mixed lls))) by (apply filter_In; auto).
    apply Permutation_sym in P; assert (N := Permutation_NoDup P (seq_NoDup _ _)); apply NoDup_app_r in N.
    apply (NoDup_app_not _ _ i N H1), in_app_iff; left; exact H2.
  - intros H; rewrite (not_fb_pure lls H); apply order_perm.
Qed.

(** ** argsort inverts a permutation *)
Lemma insert_perm a l : Permutation (insert_by a l) (a :: l).
Proof.
  induction l as [|b l IH]; cbn [insert_by]; [reflexivity|]; destruct (fst a <=? fst b); [reflexivity|].
  rewrite IH; constructor.
Qed.
Lemma insert_sorted a l : StronglySorted le (map fst l) -> StronglySorted le (map fst (insert_by a l)).
Proof.
  induction l as [|b l IH]; intros H; cbn [insert_by map]; [repeat constructor|].
  destruct (Nat.leb_spec (fst a) (fst b)) as [L|L]; cbn [map] in *.
  - constructor; [exact H|]; apply StronglySorted_inv in H as [_ H]; constructor; [exact L|].
    apply Forall_impl with (2 := H); intros; lia.
  - apply StronglySorted_inv in H as [H1 H2]; constructor; [exact (IH H1)|].
    apply (Permutation_Forall (Permutation_map fst (Permutation_sym (insert_perm a l)))); cbn [map]; constructor; [lia|exact H2].
Qed.
Lemma sort_spec l : let s := fold_right insert_by [] l in Permutation s l /\ StronglySorted le (map fst s).
Proof.
  induction l as [|a l (P & S)]; cbn [fold_right]; [split; [reflexivity|constructor]|].
  split; [rewrite insert_perm, P; reflexivity|apply insert_sorted; exact S].
Qed.
Lemma sorted_unique l : forall l', StronglySorted le l -> StronglySorted le l' -> Permutation l l' -> l = l'.
Proof.
  induction l as [|a l IH]; intros l' H H' P; [symmetry; apply Permutation_nil; exact P|].
  destruct l' as [|b l']; [apply Permutation_sym, Permutation_nil in P; discriminate|].
  assert (E : a = b).
  { apply StronglySorted_inv in H as [_ H]; apply StronglySorted_inv in H' as [_ H'].
    assert (Ha : In a (b :: l')) by (apply (Permutation_in _ P); left; reflexivity).
    assert (Hb : In b (a :: l)) by (apply (Permutation_in _ (Permutation_sym P)); left; reflexivity).
    destruct Ha as [Ha|Ha]; [auto|]; destruct Hb as [Hb|Hb]; [auto|].
    apply (proj1 (Forall_forall _ _) H) in Hb; apply (proj1 (Forall_forall _ _) H') in Ha; lia. }
  subst b; f_equal; apply IH; [apply StronglySorted_inv in H; tauto|apply StronglySorted_inv in H'; tauto|].
  apply Permutation_cons_inv in P; exact P.
Qed.
Lemma seq_sorted n : forall k, StronglySorted le (seq k n).
Proof. induction n as [|n IH]; intros k; cbn [seq]; constructor; [apply IH|]; apply Forall_forall; intros i Hi; apply in_seq in Hi; lia. Qed.
Lemma combine_nth_error {A} (l : list A) : forall k i a j, nth_error (combine l (seq k (List.length l))) i = Some (a, j) <-> nth_error l i = Some a /\ j = k + i.
Proof.
  induction l as [|b l IH]; intros k i a j; cbn [combine List.length seq].
  - destruct i; cbn [nth_error combine]; split; [discriminate|intros [G _]; discriminate|discriminate|intros [G _]; discriminate].
  - destruct i as [|i]; cbn [nth_error].
    + split; [intros G; injection G as <- <-; split; [reflexivity|lia]|intros [G ->]; injection G as <-; do 2 f_equal; lia].
    + rewrite IH; split; intros [G ->]; (split; [exact G|lia]).
Qed.
Lemma combine_fst {A B} (l : list A) : forall l' : list B, List.length l' = List.length l -> map fst (combine l l') = l.
Proof. induction l as [|a l IH]; intros [|b l'] H; try discriminate H; [reflexivity|]; cbn [combine map fst]; f_equal; apply IH; injection H; auto. Qed.
Lemma argsort_inverse l : Permutation l (seq 0 (List.length l)) ->
  Permutation (argsort l) (seq 0 (List.length l)) /\ forall i j, nth_error l i = Some j <-> nth_error (argsort l) j = Some i.
Proof.
  intros P; unfold argsort; set (c := combine l (seq 0 (List.length l))); destruct (sort_spec c) as (Ps & Ss); set (s := fold_right insert_by [] c) in *.
  assert (Lc : map fst c = l) by (apply combine_fst, seq_length).
  assert (E : map fst s = seq 0 (List.length l)).
  { apply sorted_unique; [exact Ss|apply seq_sorted|]; rewrite Ps, Lc; exact P. }
  assert (Nl : NoDup l) by (apply (Permutation_NoDup (Permutation_sym P)), seq_NoDup).
  assert (Ls : List.length s = List.length l) by (rewrite <- (map_length fst), E; apply seq_length).
  assert (K : forall j i, nth_error (map snd s) j = Some i <-> nth_error s j = Some (j, i)).
  { intros j i; rewrite nth_error_map; destruct (nth_error s j) as [[a b]|] eqn:Ej; cbn [option_map snd]; [|split; discriminate].
    assert (Ea : nth_error (map fst s) j = Some a) by (rewrite nth_error_map, Ej; reflexivity).
    rewrite E in Ea; assert (Hj : j < List.length l) by (rewrite <- (seq_length (List.length l) 0); apply nth_error_Some; congruence).
    rewrite (nth_error_nth' _ 0) in Ea by (rewrite seq_length; exact Hj); rewrite seq_nth in Ea by exact Hj; injection Ea as <-; split; intros G; injection G as ->; reflexivity. }
  assert (M : forall j i, nth_error s j = Some (j, i) <-> nth_error l i = Some j).
  { intros j i; split.
    - intros G; apply nth_error_In in G; apply (Permutation_in _ Ps) in G; apply In_nth_error in G as (p & G); apply combine_nth_error in G as [G ->]; exact G.
    - intros G; assert (Hj : j < List.length s).
      { rewrite Ls; apply nth_error_In in G; apply (Permutation_in _ P), in_seq in G; lia. }
      apply nth_error_Some in Hj; destruct (nth_error s j) as [[a b]|] eqn:Ej; [|contradiction].
      assert (B : nth_error (map snd s) j = Some b) by (rewrite nth_error_map, Ej; reflexivity).
      apply K in B; rewrite Ej in B; injection B as ->.
      assert (B := Ej); apply nth_error_In in B; apply (Permutation_in _ Ps) in B; apply In_nth_error in B as (p & B); apply combine_nth_error in B as [B ->].
      cbn [plus] in *; do 2 f_equal; apply (proj1 (NoDup_nth_error l) Nl); [apply nth_error_Some; congruence|congruence]. }
  split; [|intros i j; rewrite K, M; reflexivity].
  rewrite Ps; unfold c; clear; generalize 0; induction l as [|a l IH]; intros k; cbn [List.length seq combine map snd]; [reflexivity|constructor; apply IH].
Qed.

(** ** Counts *)
Lemma select_filter {A} (dflt : A) m : forall r, List.length m = List.length r -> forall k,
  select m r = map (fun i => nth (i - k) r dflt) (filter (fun i => nth (i - k) m false) (seq k (List.length r))).
Proof.
  induction m as [|b m IH]; intros [|a r] H k; try discriminate H; [reflexivity|].
  cbn [select List.length seq filter]; rewrite Nat.sub_diag; change (nth 0 (b :: m) false) with b.
  rewrite (IH r ltac:(injection H; auto) (S k)).
  assert (E : filter (fun i => nth (i - k) (b :: m) false) (seq (S k) (List.length r)) = filter (fun i => nth (i - S k) m false) (seq (S k) (List.length r))).
  { apply filter_ext_in; intros i Hi; apply in_seq in Hi; replace (i - k) with (S (i - S k)) by lia; reflexivity. }
  rewrite E; assert (F : forall l, (forall i, In i l -> k < i) -> map (fun i => nth (i - S k) r dflt) l = map (fun i => nth (i - k) (a :: r) dflt) l).
  { intros l Hl; apply map_ext_in; intros i Hi; specialize (Hl i Hi); replace (i - k) with (S (i - S k)) by lia; reflexivity. }
  assert (Lo : forall i, In i (filter (fun i => nth (i - S k) m false) (seq (S k) (List.length r))) -> k < i).
  { intros i Hi; apply filter_In in Hi as [Hi _]; apply in_seq in Hi; lia. }
  destruct b; [cbn [map]; rewrite Nat.sub_diag; cbn [nth]; f_equal|]; apply F; exact Lo.
Qed.
Lemma filter_map_length {A B} (f : B -> bool) (g : A -> B) l : List.length (filter f (map g l)) = List.length (filter (fun a => f (g a)) l).
Proof. induction l as [|a l IH]; [reflexivity|]; cbn [map filter]; destruct (f (g a)); cbn [List.length]; congruence. Qed.
Lemma filter_filter {A} (f g : A -> bool) l : filter f (filter g l) = filter (fun a => g a && f a) l.
Proof. induction l as [|a l IH]; [reflexivity|]; cbn [filter]; destruct (g a); cbn [filter andb]; [destruct (f a); rewrite IH; reflexivity|exact IH]. Qed.
Lemma filter_split {A} (f g : A -> bool) l : List.length (filter (fun a => f a && negb (g a)) l) + List.length (filter (fun a => f a && g a) l) = List.length (filter f l).
Proof. induction l as [|a l IH]; [reflexivity|]; cbn [filter]; destruct (f a), (g a); cbn [andb negb List.length]; lia. Qed.
Lemma filter_one (f : nat -> bool) n i0 k : k <= i0 < k + n -> f i0 = true -> (forall i, f i = true -> i = i0) -> filter f (seq k n) = [i0].
Proof.
  revert k; induction n as [|n IH]; intros k Hi H0 Hu; [lia|]; cbn [seq filter].
  destruct (Nat.eq_dec k i0) as [->|N].
  - rewrite H0; f_equal; destruct (filter f (seq (S i0) n)) as [|j l] eqn:E; [reflexivity|].
    assert (Hj : In j (filter f (seq (S i0) n))) by (rewrite E; left; reflexivity); apply filter_In in Hj as [Hj Hf]; apply in_seq in Hj; apply Hu in Hf; lia.
  - destruct (f k) eqn:Ek; [apply Hu in Ek; contradiction|]; apply IH; [lia|exact H0|exact Hu].
Qed.
Lemma filter_none {A} (f : A -> bool) l : (forall i, In i l -> f i = false) -> filter f l = [].
Proof. induction l as [|a l IH]; intros H; [reflexivity|]; cbn [filter]; rewrite (H a (or_introl eq_refl)); apply IH; intros i Hi; apply H; right; exact Hi. Qed.

Lemma n_static_array lls ns :
  n_static (array lls ns) + List.length (filter (fun i => static lls i && match nth i (row_0 (array lls ns)) None with Some 0 => true | _ => false end) (seq 0 (List.length lls)))
  = List.length (members_of lls (static lls)).
Proof.
  unfold n_static; rewrite (mask_array is_static (fun m z p => negb m && negb p)) by (intros [a|] [b|] [c|]; reflexivity).
  assert (L : List.length (row_0 (array lls ns)) = List.length lls) by (exact (array_length lls ns 0)).
  rewrite (fun m r H => select_filter None m r H 0) by (rewrite map_length; auto); rewrite filter_map_length, filter_filter, L.
  unfold members_of; rewrite <- (filter_split (static lls) (fun i => match nth i (row_0 (array lls ns)) None with Some 0 => true | _ => false end)).
  f_equal; f_equal; apply filter_ext_in; intros i Hi; apply in_seq in Hi; rewrite Nat.sub_0_r.
  assert (S : nth i (map (fun ll => negb (existsb (Z.eqb (-1)) ll) && negb (existsb (Z.eqb 1) ll)) lls) false = static lls i).
  { unfold static, at_k; set (g := fun ll => negb (existsb (Z.eqb (-1)) ll) && negb (existsb (Z.eqb 1) ll)).
    rewrite (nth_indep _ false (g [])) by (rewrite map_length; lia); rewrite map_nth; reflexivity. }
  rewrite S; f_equal; destruct (nth i (row_0 (array lls ns)) None) as [[|]|]; reflexivity.
Qed.
(** A static variable has the first column. *)
Definition first_static (lls : list (list Z)) : Prop := exists i, nth_error (timed_vars lls) 0 = Some (i, 0%Z) /\ static lls i = true.
Lemma n_static_cases lls ns :
  (first_static lls -> S (n_static (array lls ns)) = List.length (members_of lls (static lls))) /\
  (~ first_static lls -> n_static (array lls ns) = List.length (members_of lls (static lls))).
Proof.
  pose proof (n_static_array lls ns) as H.
  set (f := fun i => static lls i && match nth i (row_0 (array lls ns)) None with Some 0 => true | _ => false end) in *.
  assert (L : List.length (row_0 (array lls ns)) = List.length lls) by (exact (array_length lls ns 0)).
  assert (F : forall i, f i = true <-> nth_error (timed_vars lls) 0 = Some (i, 0%Z) /\ static lls i = true).
  { intros i; pose proof (array_entry lls ns 0 i 0 ltac:(lia)) as A; unfold row_at in A; cbn [Z.eqb] in A; rewrite <- A; unfold f; rewrite andb_true_iff; split.
    - intros [Hs Hn]; split; [|exact Hs]; destruct (nth_error (row_0 (array lls ns)) i) as [o|] eqn:E.
      + rewrite (nth_error_nth _ _ _ E) in Hn; destruct o as [[|]|]; try discriminate; reflexivity.
      + rewrite nth_overflow in Hn by (apply nth_error_None; exact E); discriminate.
    - intros [Hn Hs]; split; [exact Hs|]; rewrite (nth_error_nth _ _ _ Hn); reflexivity. }
  split.
  - intros (i0 & Hi & Hs); rewrite (filter_one f _ i0) in H; [cbn [List.length] in H; lia| | |].
    + assert (A := proj2 (array_entry lls ns 0 i0 0 ltac:(lia)) Hi); unfold row_at in A; cbn [Z.eqb] in A.
      assert (i0 < List.length (row_0 (array lls ns))) by (apply nth_error_Some; congruence); lia.
    + apply F; auto.
    + intros i Hf; apply F in Hf as [Hf _]; congruence.
  - intros Hn; rewrite (filter_none f) in H; [cbn [List.length] in H; lia|].
    intros i _; destruct (f i) eqn:E; [|reflexivity]; exfalso; apply Hn; exists i; apply F; exact E.
Qed.

(** ** Columns of a class *)
Lemma not_nan_select row : forall (m : list bool) o k, List.length m = List.length row ->
  Forall2 (fun i j => nth_error (fill row k) (i - o) = Some (Some j) /\ o <= i)
    (where_ (map (fun p : bool * bool => fst p && snd p) (combine m row)) o) (not_nan (select m (fill row k))).
Proof.
  induction row as [|b row IH]; intros [|a m] o k H; try discriminate H; [constructor|].
  cbn [List.length] in H; injection H as H; cbn [combine map fst snd].
  assert (T : forall o' k' x, Forall2 (fun i j => nth_error (fill row k') (i - o') = Some (Some j) /\ o' <= i)
     (where_ (map (fun p : bool * bool => fst p && snd p) (combine m row)) o') (not_nan (select m (fill row k'))) ->
     Forall2 (fun i j => nth_error (x :: fill row k') (i - (o' - 1)) = Some (Some j) /\ o' - 1 <= i)
     (where_ (map (fun p : bool * bool => fst p && snd p) (combine m row)) o') (not_nan (select m (fill row k'))) \/ o' = 0).
  { intros [|o'] k' x G; [right; reflexivity|left].
    induction G as [|i j li lj [G1 G2] Gl IHl]; constructor; [|exact IHl].
    split; [|lia]; replace (i - (S o' - 1)) with (S (i - S o')) by lia; exact G1. }
  destruct b; cbn [fill].
  - destruct (T (S o) (S k) (Some k) (IH m (S o) (S k) H)) as [G|G]; [|discriminate].
    cbn [Nat.sub] in G; rewrite Nat.sub_0_r in G; rewrite andb_true_r; destruct a; cbn [where_ select not_nan]; [constructor; [rewrite Nat.sub_diag; auto|]|]; exact G.
  - destruct (T (S o) k None (IH m (S o) k H)) as [G|G]; [|discriminate].
    cbn [Nat.sub] in G; rewrite Nat.sub_0_r in G; rewrite andb_false_r; destruct a; cbn [where_ select not_nan]; exact G.
Qed.
Lemma Forall2_map_impl {A B} (P Q : A -> B -> Prop) l l' : (forall a b, P a b -> Q a b) -> Forall2 P l l' -> Forall2 Q l l'.
Proof. intros H G; induction G; constructor; auto. Qed.
Lemma timed_array p q lls ns k : (-1 <= k <= 1)%Z -> (forall a b c, p a b c = q (negb (isnan a)) (negb (isnan b)) (negb (isnan c))) ->
  exists js, timed p (array lls ns) k = Ok js /\
    Forall2 (fun i j => nth_error (timed_vars lls) j = Some (i, k))
      (filter (fun i => q (at_k lls i (-1)) (at_k lls i 0) (at_k lls i 1) && at_k lls i k) (seq 0 (List.length lls))) js.
Proof.
  intros Hk Hp; unfold timed.
  assert (R : row_of (array lls ns) k = Ok (row_at (array lls ns) k)).
  { assert (C : k = (-1)%Z \/ k = 0%Z \/ k = 1%Z) by lia; destruct C as [-> | [-> | ->]]; reflexivity. }
  rewrite R; cbn [bind]; eexists; split; [reflexivity|]; rewrite (mask_array p q) by exact Hp.
  assert (E : exists d, row_at (array lls ns) k = fill (brow lls k) d).
  { assert (C : k = (-1)%Z \/ k = 0%Z \/ k = 1%Z) by lia; destruct C as [-> | [-> | ->]]; unfold row_at, array; cbn [Z.eqb Pos.eqb row_m row_0 row_p]; eauto. }
  destruct E as (d & E).
  pose proof (not_nan_select (brow lls k) (map (fun ll => q (existsb (Z.eqb (-1)) ll) (existsb (Z.eqb 0) ll) (existsb (Z.eqb 1) ll)) lls) 0 d
    ltac:(unfold brow; rewrite !map_length; reflexivity)) as G.
  rewrite E; assert (W : where_ (map (fun p : bool * bool => fst p && snd p) (combine (map (fun ll => q (existsb (Z.eqb (-1)) ll) (existsb (Z.eqb 0) ll) (existsb (Z.eqb 1) ll)) lls) (brow lls k))) 0
    = filter (fun i => q (at_k lls i (-1)) (at_k lls i 0) (at_k lls i 1) && at_k lls i k) (seq 0 (List.length lls))).
  { assert (C : map (fun p : bool * bool => fst p && snd p) (combine (map (fun ll => q (existsb (Z.eqb (-1)) ll) (existsb (Z.eqb 0) ll) (existsb (Z.eqb 1) ll)) lls) (brow lls k))
      = map (fun ll => q (existsb (Z.eqb (-1)) ll) (existsb (Z.eqb 0) ll) (existsb (Z.eqb 1) ll) && existsb (Z.eqb k) ll) lls).
    { unfold brow; clear; induction lls as [|ll lls IH]; [reflexivity|]; cbn [map combine fst snd]; f_equal; exact IH. }
    rewrite C, (where_filter _ []); apply filter_ext; intros i; rewrite Nat.sub_0_r; reflexivity. }
  rewrite <- W; apply Forall2_map_impl with (2 := G); intros i j [H _]; rewrite Nat.sub_0_r in H.
  apply (array_entry lls ns k i j Hk); rewrite E; exact H.
Qed.
