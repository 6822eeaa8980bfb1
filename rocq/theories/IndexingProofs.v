From Verif Require Import Base Syntax Lexer Parser Eval EvalSpec EvalProofs ModFileSpec Semantics SemanticsSpec SemanticsProofs
  Factory FactorySpec FactoryProofs Indexing IndexingSpec.
From Coq Require Import Permutation Sorted.

Lemma algebraic_dec V : forall e : ast V, algebraic V e \/ ~ algebraic V e.
Proof. induction e as [n|x|x k|u e0 IH|o l IHl r IHr|g e0 IH|o l IHl r IHr]; cbn [algebraic]; tauto. Qed.

(** ** Reading periods *)
Section Periods.
  Variable V : Type.
  Variable endog : list string.
  Definition got (d : list (string * list Z)) (x : string) (k : Z) : Prop := exists ps, lookup x d = Some ps /\ In k ps.

  Lemma note_spec x k d : forall y j, got (note_period endog x k d) y j <-> (y = x /\ j = k /\ In x endog) \/ got d y j.
  Proof.
    intros y j; unfold note_period, got; destruct (mem x endog) eqn:E.
    - apply mem_In in E; rewrite lookup_update; destruct (String.eqb_spec y x) as [->|N].
      + split.
        * intros (ps & G & Hj); injection G as <-; apply set_add_In in Hj as [->|Hj]; [left; auto|right].
          destruct (lookup x d) as [ps|]; [eauto|contradiction].
        * intros [(_ & -> & _)|(ps & -> & Hj)]; eexists; (split; [reflexivity|]); apply set_add_In; auto.
      + split; [auto|intros [(G & _)|G]; [contradiction|exact G]].
    - apply mem_false in E; split; [auto|intros [(-> & _ & G)|G]; [contradiction|exact G]].
  Qed.
  Lemma note_keys x k d : (forall y, In y (keys d) -> In y endog) -> forall y, In y (keys (note_period endog x k d)) -> In y endog.
  Proof.
    intros H y; unfold note_period; destruct (mem x endog) eqn:E; [|apply H].
    rewrite keys_update; destruct (mem x (keys d)); [apply H|]; rewrite in_app_iff; intros [G|[<-|[]]]; [exact (H y G)|apply mem_In; exact E].
  Qed.
  Lemma note_NoDup x k d : NoDup (keys d) -> NoDup (keys (note_period endog x k d)).
  Proof. intros H; unfold note_period; destruct (mem x endog); [apply NoDup_keys_update|]; exact H. Qed.

  Lemma count_spec e : forall d, algebraic V e -> exists d', count_periods V endog e d = Ok d' /\
    (forall y j, got d' y j <-> (In y endog /\ at_period V y j e) \/ got d y j) /\
    ((forall y, In y (keys d) -> In y endog) -> forall y, In y (keys d') -> In y endog) /\ (NoDup (keys d) -> NoDup (keys d')).
  Proof.
    induction e as [n|x|x k|u e IH|o l IHl r IHr|g e IH|o l IHl r IHr]; intros d Ha; cbn [count_periods algebraic] in *.
    - exists d; split; [reflexivity|]; split; [|auto]; intros y j; split; [auto|intros [[_ G]|G]; [inversion G|exact G]].
    - eexists; split; [reflexivity|]; split; [|split; [apply note_keys|apply note_NoDup]]; intros y j; rewrite note_spec; split.
      + intros [(-> & -> & G)|G]; [left; split; [exact G|constructor]|auto].
      + intros [[G A]|G]; [left; inversion A; subst; auto|auto].
    - eexists; split; [reflexivity|]; split; [|split; [apply note_keys|apply note_NoDup]]; intros y j; rewrite note_spec; split.
      + intros [(-> & -> & G)|G]; [left; split; [exact G|constructor]|auto].
      + intros [[G A]|G]; [left; inversion A; subst; auto|auto].
    - destruct (IH d Ha) as (d' & E & S & K); exists d'; split; [exact E|]; split; [|exact K]; intros y j; rewrite S; split.
      + intros [[G A]|G]; [left; split; [exact G|constructor; exact A]|auto].
      + intros [[G A]|G]; [left; inversion A; subst; auto|auto].
    - destruct Ha as [Hl Hr]; destruct (IHl d Hl) as (d1 & E1 & S1 & K1); rewrite E1; cbn [bind].
      destruct (IHr d1 Hr) as (d2 & E2 & S2 & K2); exists d2; split; [exact E2|]; split; [|split; [intros G; apply K2, K1, G|intros G; apply K2, K1, G]].
      intros y j; rewrite S2, S1; split.
      + intros [[G A]|[[G A]|G]]; [left; split; [exact G|apply P_binr; exact A]|left; split; [exact G|apply P_binl; exact A]|auto].
      + intros [[G A]|G]; [inversion A; subst; auto|auto].
    - destruct (IH d Ha) as (d' & E & S & K); exists d'; split; [exact E|]; split; [|exact K]; intros y j; rewrite S; split.
      + intros [[G A]|G]; [left; split; [exact G|constructor; exact A]|auto].
      + intros [[G A]|G]; [left; inversion A; subst; auto|auto].
    - contradiction.
  Qed.
  Lemma count_comp e : forall d, ~ algebraic V e -> exists er, count_periods V endog e d = Err er.
  Proof.
    pose proof (algebraic_dec V) as dec.
    induction e as [n|x|x k|u e IH|o l IHl r IHr|g e IH|o l IHl r IHr]; intros d Ha; cbn [count_periods algebraic] in *; try tauto; eauto.
    destruct (dec l) as [Hl|Hl].
    - destruct (count_spec l d Hl) as (d1 & -> & _); cbn [bind]; apply IHr; tauto.
    - destruct (IHl d Hl) as (er & ->); cbn [bind]; eauto.
  Qed.

  Lemma union_In a b k : In k (set_union a b) <-> In k a \/ In k b.
  Proof.
    unfold set_union; revert a; induction b as [|j b IH]; intros a; cbn [fold_left In]; [tauto|].
    rewrite IH, set_add_In; intuition.
  Qed.
  Lemma merge_spec c : forall d, NoDup (keys c) -> (forall y, In y (keys c) -> In y (keys d)) ->
    keys (merge_counts d c) = keys d /\ forall y j, got (merge_counts d c) y j <-> got d y j \/ got c y j.
  Proof.
    unfold merge_counts; induction c as [|[x ps] c IH]; intros d Hnd Hk; cbn [fold_left fst snd].
    - split; [reflexivity|]; intros y j; unfold got; cbn [lookup]; split; [auto|intros [G|(ps & G & _)]; [exact G|discriminate]].
    - unfold keys in Hnd; cbn [map fst] in Hnd; apply NoDup_cons_iff in Hnd as [Hx Hnd].
      destruct (lookup_key x d (Hk x (or_introl eq_refl))) as (qs & Hq); rewrite Hq.
      assert (K : keys (update x (set_union qs ps) d) = keys d).
      { rewrite keys_update; assert (mem x (keys d) = true) as -> by (apply mem_In, Hk; left; reflexivity); reflexivity. }
      destruct (IH (update x (set_union qs ps) d) Hnd) as (A & B).
      { intros y Hy; rewrite K; apply Hk; right; exact Hy. }
      split; [rewrite A; exact K|]; intros y j; rewrite B; unfold got; rewrite lookup_update; cbn [lookup].
      destruct (String.eqb_spec y x) as [->|N]; [|reflexivity].
      assert (Hn : lookup x c = None) by (apply lookup_None; exact Hx); rewrite Hn, Hq; split.
      + intros [(p & G & Hj)|(p & G & _)]; [|discriminate]; injection G as <-; apply union_In in Hj as [Hj|Hj]; eauto.
      + intros [(p & G & Hj)|(p & G & Hj)]; injection G as <-; left; eexists; (split; [reflexivity|]); apply union_In; auto.
  Qed.

  Lemma fromkeys l : forall d : list (string * list Z), (forall y ps, lookup y d = Some ps -> ps = []) -> NoDup (keys d) ->
    let d' := fold_left (fun d x => update x [] d) l d in
    (forall y ps, lookup y d' = Some ps -> ps = []) /\ NoDup (keys d') /\ forall y, In y (keys d') <-> In y (keys d) \/ In y l.
  Proof.
    induction l as [|x l IH]; intros d He Hnd; cbn [fold_left In].
    - split; [exact He|]; split; [exact Hnd|tauto].
    - destruct (IH (update x [] d)) as (A & B & C).
      + intros y ps; rewrite lookup_update; destruct (String.eqb y x); [congruence|apply He].
      + apply NoDup_keys_update; exact Hnd.
      + split; [exact A|]; split; [exact B|]; intros y; rewrite C, keys_update; destruct (mem x (keys d)) eqn:E.
        * apply mem_In in E; split; [tauto|intros [G|[<-|G]]; auto].
        * rewrite in_app_iff; cbn [In]; tauto.
  Qed.

  Lemma read_spec exprs : Forall (algebraic V) exprs -> exists d, read_lead_lags V endog exprs = Ok d /\
    (forall y, In y (keys d) <-> In y endog) /\
    forall y j, got d y j <-> In y endog /\ exists e, In e exprs /\ at_period V y j e.
  Proof.
    intros Ha; unfold read_lead_lags.
    destruct (fromkeys endog [] ltac:(discriminate) ltac:(constructor)) as (A & B & C).
    set (d0 := fold_left _ endog []) in *.
    assert (C' : forall y, In y (keys d0) <-> In y endog) by (intros y; rewrite C; cbn; tauto).
    assert (G : forall l d, Forall (algebraic V) l -> (forall y, In y (keys d) <-> In y endog) ->
      exists d', foldM (fun d e => do c <- count_periods V endog e []; Ok (merge_counts d c)) d l = Ok d' /\
        (forall y, In y (keys d') <-> In y endog) /\
        forall y j, got d' y j <-> got d y j \/ (In y endog /\ exists e, In e l /\ at_period V y j e)).
    { induction l as [|e l IH]; intros d Hl Hk; cbn [foldM].
      - exists d; split; [reflexivity|]; split; [exact Hk|]; intros y j; split; [auto|intros [G|(_ & e & [] & _)]; exact G].
      - apply Forall_cons_iff in Hl as [He Hl]; destruct (count_spec e [] He) as (c & E & S & K & N); rewrite E; cbn [bind].
        destruct (merge_spec c d (N ltac:(constructor))) as (M1 & M2).
        { intros y Hy; apply Hk, K; [intros z []|exact Hy]. }
        destruct (IH (merge_counts d c) Hl) as (d' & E' & K' & G'); [intros y; rewrite M1; apply Hk|].
        exists d'; split; [exact E'|]; split; [exact K'|]; intros y j; rewrite G', M2, S; split.
        + intros [[G|[[G1 G2]|(ps & G & _)]]|(G & e' & He' & Hp)]; [auto| |discriminate|].
          * right; split; [exact G1|]; exists e; split; [left; reflexivity|exact G2].
          * right; split; [exact G|]; exists e'; split; [right; exact He'|exact Hp].
        + intros [G|(G & e' & [<-|He'] & Hp)]; [auto|auto|right; split; [exact G|eauto]]. }
    destruct (G exprs d0 Ha C') as (d & E & K & S); exists d; split; [exact E|]; split; [exact K|].
    intros y j; rewrite S; split; [intros [(ps & Hp & Hj)|H]; [|exact H]|auto].
    rewrite (A y ps Hp) in Hj; contradiction.
  Qed.
  Lemma read_error exprs : ~ Forall (algebraic V) exprs -> exists er, read_lead_lags V endog exprs = Err er.
  Proof.
    pose proof (algebraic_dec V) as dec.
    unfold read_lead_lags; generalize (fold_left (fun d x => update x [] d) endog ([] : list (string * list Z))); induction exprs as [|e l IH]; intros d H; [exfalso; apply H; constructor|].
    cbn [foldM]; destruct (dec e) as [He|He].
    - destruct (count_spec e [] He) as (c & -> & _); cbn [bind]; apply IH; intros G; apply H; constructor; assumption.
    - destruct (count_comp e [] He) as (er & ->); cbn [bind]; eauto.
  Qed.

  Lemma set_spec exprs lls : set_lead_lags V endog exprs = Ok lls ->
    keys lls = endog /\ Forall (algebraic V) exprs /\
    forall x ps, In (x, ps) lls -> forall k, In k ps <-> exists e, In e exprs /\ at_period V x k e.
  Proof.
    intros H; unfold set_lead_lags in H; apply bind_ok in H as (d & Hd & H).
    assert (Ha : Forall (algebraic V) exprs).
    { pose proof (algebraic_dec V) as dec.
      assert (D : Forall (algebraic V) exprs \/ ~ Forall (algebraic V) exprs).
      { clear - dec; induction exprs as [|e l IH]; [left; constructor|].
        destruct (dec e), IH; [left; constructor; assumption| | |]; right; intros G; inversion G; contradiction. }
      destruct D as [D|D]; [exact D|]; apply read_error in D as (er & D); congruence. }
    destruct (read_spec exprs Ha) as (d' & E & K & S); rewrite E in Hd; injection Hd as ->.
    apply mapM_ok in H; assert (Q : keys lls = endog /\ forall x ps, In (x, ps) lls -> In x endog /\ lookup x d = Some ps).
    { clear - H; induction H as [|x [y ps] l lls Hh Hl (I1 & I2)].
      - split; [reflexivity|intros x ps []].
      - destruct (lookup x d) as [qs|] eqn:El; [injection Hh as <- <-|discriminate].
        split; [unfold keys in *; cbn [map fst]; f_equal; exact I1|].
        intros z zs [G|G]; [injection G as <- <-; split; [left; reflexivity|exact El]|destruct (I2 z zs G); split; [right; assumption|assumption]]. }
    destruct Q as [Q1 Q2]; split; [exact Q1|]; split; [exact Ha|]; intros x ps Hin k; destruct (Q2 x ps Hin) as [Hx Hl].
    specialize (S x k); unfold got in S; rewrite Hl in S; split.
    - intros Hk; apply S; eauto.
    - intros He; destruct (proj2 S (conj Hx He)) as (qs & G & Hk); injection G as <-; exact Hk.
  Qed.
  Lemma set_total exprs : Forall (algebraic V) exprs -> exists lls, set_lead_lags V endog exprs = Ok lls.
  Proof.
    intros Ha; unfold set_lead_lags; destruct (read_spec exprs Ha) as (d & -> & K & _); cbn [bind].
    assert (G : forall l, (forall x, In x l -> In x (keys d)) -> exists lls, mapM (fun x => match lookup x d with Some ps => Ok (x, ps) | None => Err KeyErr end) l = Ok lls).
    { induction l as [|x l IH]; intros Hl; cbn [mapM]; [eauto|].
      destruct (lookup_key x d (Hl x (or_introl eq_refl))) as (ps & ->); cbn [bind].
      destruct IH as (lls & ->); [intros; apply Hl; right; assumption|]; cbn [bind]; eauto. }
    apply G; intros x Hx; apply K; exact Hx.
  Qed.
End Periods.

(** ** The incidence array *)
Definition brow (lls : list (list Z)) (k : Z) : list bool := map (existsb (Z.eqb k)) lls.
(** The array of a model whose offsets are -1, 0 and 1. *)
Definition array (lls : list (list Z)) (ns : nat) : indexes :=
  let n0 := count_true (brow lls (-1)) in
  let n1 := count_true (brow lls 0) in
  let n2 := count_true (brow lls 1) in
  Indexes (fill (brow lls (-1)) 0) (fill (brow lls 0) n0) (fill (brow lls 1) (n0 + n1)) (n0 + n1 + n2) ns.

Lemma update_fresh {A} x (v : A) d : ~ In x (keys d) -> update x v d = d ++ [(x, v)].
Proof.
  induction d as [|[y w] d IH]; intros H; [reflexivity|].
  cbn [update]; destruct (String.eqb_spec x y) as [->|N]; [exfalso; apply H; left; reflexivity|].
  cbn [app]; f_equal; apply IH; intros G; apply H; right; exact G.
Qed.
Lemma dict_id {A} (l : list (string * A)) : forall d, NoDup (keys (d ++ l)) ->
  fold_left (fun d p => update (fst p) (snd p) d) l d = d ++ l.
Proof.
  induction l as [|[x v] l IH]; intros d H; cbn [fold_left fst snd]; [rewrite app_nil_r; reflexivity|].
  rewrite update_fresh, IH.
  - rewrite <- app_assoc; reflexivity.
  - rewrite <- app_assoc; exact H.
  - unfold keys in *; rewrite map_app in H; cbn [map fst] in H; apply NoDup_remove_2 in H.
    intros G; apply H, in_app_iff; left; exact G.
Qed.
Lemma mark_in_range ll : ll <> [] -> Forall (fun k => (-1 <= k <= 1)%Z) ll -> mark ll = Ok (map (fun k => k + 1)%Z ll).
Proof.
  intros Hn Hr; assert (M : map (fun k => (k + 1) mod 3)%Z ll = map (fun k => k + 1)%Z ll).
  { apply map_ext_in; intros k Hk; apply (proj1 (Forall_forall _ _) Hr) in Hk; apply Z.mod_small; lia. }
  assert (B : forall k, (-1 <= k <= 1)%Z -> ((-3 <=? k + 1) && (k + 1 <=? 2) = true)%Z).
  { intros k Hk; apply andb_true_iff; split; apply Z.leb_le; lia. }
  assert (F : forallb (fun k => (-3 <=? k + 1) && (k + 1 <=? 2))%Z ll = true).
  { apply forallb_forall; intros k Hk; apply B; exact (proj1 (Forall_forall _ _) Hr k Hk). }
  destruct ll as [|a [|b l]]; [contradiction| |].
  - cbn [forallb] in F; rewrite andb_true_r in F; cbn [map] in M; unfold mark; rewrite F; rewrite M; reflexivity.
  - unfold mark; rewrite F, M; reflexivity.
Qed.
Lemma index_manager_array lls ns : NoDup (keys lls) -> in_range (map snd lls) -> index_manager lls ns = Ok (array (map snd lls) ns).
Proof.
  intros Hnd Hr; unfold index_manager; rewrite dict_id by exact Hnd; cbn [app].
  assert (M : mapM (fun p => mark (snd p)) lls = Ok (map (fun p => map (fun k => k + 1)%Z (snd p)) lls)).
  { clear Hnd; induction lls as [|[x ll] lls IH]; [reflexivity|].
    cbn [map snd] in Hr; apply Forall_cons_iff in Hr as [[Hn Hr] Hl]; cbn [mapM snd map].
    rewrite mark_in_range by assumption; cbn [bind]; rewrite IH by exact Hl; reflexivity. }
  rewrite M; cbn [bind]; rewrite map_length, Nat.sub_diag; cbn [repeat]; rewrite app_nil_r.
  assert (E : forall r, map (existsb (Z.eqb r)) (map (fun p : string * list Z => map (fun k => k + 1)%Z (snd p)) lls) = brow (map snd lls) (r - 1)).
  { intros r; unfold brow; rewrite !map_map; apply map_ext; intros [x ll]; cbn [snd]; clear.
    induction ll as [|k ll IH]; cbn [map existsb]; [reflexivity|]; f_equal; [|exact IH].
    destruct (Z.eqb_spec r (k + 1)), (Z.eqb_spec (r - 1) k); auto; lia. }
  rewrite (E 0%Z), (E 1%Z), (E 2%Z); reflexivity.
Qed.

Lemma where_filter {A} (f : A -> bool) dflt (l : list A) : forall k, where_ (map f l) k = filter (fun i => f (nth (i - k) l dflt)) (seq k (List.length l)).
Proof.
  induction l as [|a l IH]; intros k; [reflexivity|].
  cbn [map where_ List.length seq filter]; rewrite Nat.sub_diag; change (nth 0 (a :: l) dflt) with a; rewrite IH.
  assert (E : filter (fun i => f (nth (i - k) (a :: l) dflt)) (seq (S k) (List.length l)) = filter (fun i => f (nth (i - S k) l dflt)) (seq (S k) (List.length l))).
  { apply filter_ext_in; intros i Hi; apply in_seq in Hi; replace (i - k) with (S (i - S k)) by lia; reflexivity. }
  rewrite E; destruct (f a); reflexivity.
Qed.
Lemma where_brow lls k : where_ (brow lls k) 0 = filter (fun i => at_k lls i k) (seq 0 (List.length lls)).
Proof. unfold brow; rewrite (where_filter _ []); apply filter_ext; intros i; rewrite Nat.sub_0_r; reflexivity. Qed.
Lemma where_length m : forall k, List.length (where_ m k) = count_true m.
Proof. unfold count_true; induction m as [|[|] m IH]; intros k; cbn [where_ filter List.length]; [reflexivity|f_equal; apply IH|apply IH]. Qed.
Lemma fill_where row : forall o k i j, nth_error (fill row k) i = Some (Some j) <-> k <= j /\ nth_error (where_ row o) (j - k) = Some (o + i).
Proof.
  assert (Wlow : forall row o x, In x (where_ row o) -> o <= x).
  { clear; induction row as [|b row IH]; intros o x H; [contradiction|]; destruct b; cbn [where_ In] in H.
    - destruct H as [<-|H]; [lia|apply IH in H; lia].
    - apply IH in H; lia. }
  induction row as [|b row IH]; intros o k i j; cbn [fill where_].
  - destruct i, (j - k); cbn [nth_error]; intuition discriminate.
  - destruct b; cbn [fill where_]; destruct i as [|i]; cbn [nth_error].
    + split.
      * intros G; injection G as <-; split; [lia|]; rewrite Nat.sub_diag, Nat.add_0_r; reflexivity.
      * intros [Hle H]; destruct (j - k) as [|d] eqn:E; [f_equal; f_equal; lia|].
        cbn [nth_error] in H; apply nth_error_In, Wlow in H; lia.
    + rewrite (IH (S o) (S k) i j); split.
      * intros [Hle H]; split; [lia|]; replace (j - k) with (S (j - S k)) by lia; cbn [nth_error]; rewrite H; f_equal; lia.
      * intros [Hle H]; destruct (j - k) as [|d] eqn:E; cbn [nth_error] in H; [injection H; lia|].
        split; [lia|]; replace (j - S k) with d by lia; rewrite H; f_equal; lia.
    + split; [discriminate|]; intros [Hle H]; apply nth_error_In, Wlow in H; lia.
    + rewrite (IH (S o) k i j); split; intros [Hle H]; (split; [exact Hle|]); rewrite H; f_equal; lia.
Qed.
Lemma fill_length row : forall k, List.length (fill row k) = List.length row.
Proof. induction row as [|[|] row IH]; intros k; cbn [fill List.length]; [reflexivity|f_equal; apply IH|f_equal; apply IH]. Qed.

Definition row_at (x : indexes) (k : Z) : list (option nat) := if (k =? -1)%Z then row_m x else if (k =? 0)%Z then row_0 x else row_p x.

Lemma timed_vars_length lls ns : n_endog_inc (array lls ns) = List.length (timed_vars lls).
Proof.
  unfold array, timed_vars; cbn [n_endog_inc flat_map]; rewrite app_nil_r, !app_length, !map_length, <- !where_brow, !where_length; lia.
Qed.
Lemma nth_error_pair (l : list nat) (k : Z) j i k' : nth_error (map (fun i => (i, k)) l) j = Some (i, k') <-> nth_error l j = Some i /\ k = k'.
Proof. rewrite nth_error_map; destruct (nth_error l j); cbn [option_map]; split; [intros G; injection G; intuition congruence|intros [G <-]; congruence|discriminate|intros [G _]; discriminate]. Qed.
Lemma array_entry lls ns k i j : (-1 <= k <= 1)%Z ->
  (nth_error (row_at (array lls ns) k) i = Some (Some j) <-> nth_error (timed_vars lls) j = Some (i, k)).
Proof.
  intros Hk; unfold array, timed_vars, row_at; cbn [row_m row_0 row_p flat_map]; rewrite app_nil_r, <- !where_brow.
  set (w := fun k => where_ (brow lls k) 0).
  change (where_ (brow lls (-1)) 0) with (w (-1)%Z); change (where_ (brow lls 0) 0) with (w 0%Z); change (where_ (brow lls 1) 0) with (w 1%Z).
  assert (L : forall k, count_true (brow lls k) = List.length (w k)) by (intros k'; unfold w; rewrite where_length; reflexivity).
  rewrite !L.
  assert (N : forall k d j, nth_error (fill (brow lls k) d) i = Some (Some j) <-> d <= j /\ nth_error (w k) (j - d) = Some i).
  { intros k' d j'; rewrite (fill_where _ 0); reflexivity. }
  assert (S1 : forall A (a b : list A) p, nth_error (a ++ b) p = if p <? List.length a then nth_error a p else nth_error b (p - List.length a)).
  { intros A a b p; destruct (Nat.ltb_spec p (List.length a)); [apply nth_error_app1|apply nth_error_app2]; lia. }
  rewrite !S1, !map_length.
  assert (R : forall l p x, nth_error (A:=nat) l p = Some x -> p < List.length l) by (intros l p x G; apply nth_error_Some; congruence).
  assert (C : k = (-1)%Z \/ k = 0%Z \/ k = 1%Z) by lia; destruct C as [-> | [-> | ->]]; cbn [Z.eqb Pos.eqb]; rewrite N.
  - destruct (Nat.ltb_spec j (List.length (w (-1)%Z))) as [Hl|Hl].
    + rewrite nth_error_pair, Nat.sub_0_r; intuition lia.
    + split; [intros [_ G]; rewrite Nat.sub_0_r in G; apply R in G; lia|].
      destruct (_ <? _); rewrite nth_error_pair; intros [_ G]; discriminate.
  - destruct (Nat.ltb_spec j (List.length (w (-1)%Z))) as [Hl|Hl].
    + rewrite nth_error_pair; split; [intros [G _]; lia|intros [_ G]; discriminate].
    + destruct (Nat.ltb_spec (j - List.length (w (-1)%Z)) (List.length (w 0%Z))) as [Hm|Hm]; rewrite nth_error_pair.
      * intuition lia.
      * split; [intros [_ G]; apply R in G; lia|intros [_ G]; discriminate].
  - destruct (Nat.ltb_spec j (List.length (w (-1)%Z))) as [Hl|Hl].
    + rewrite nth_error_pair; split; [intros [G _]; lia|intros [_ G]; discriminate].
    + destruct (Nat.ltb_spec (j - List.length (w (-1)%Z)) (List.length (w 0%Z))) as [Hm|Hm]; rewrite nth_error_pair.
      * split; [intros [G _]; lia|intros [_ G]; discriminate].
      * rewrite Nat.sub_add_distr; intuition lia.
Qed.
Lemma array_length lls ns k : List.length (row_at (array lls ns) k) = List.length lls.
Proof. unfold row_at, array; cbn [row_m row_0 row_p]; destruct (k =? -1)%Z, (k =? 0)%Z; rewrite fill_length; unfold brow; apply map_length. Qed.

(** ** Classes *)
Lemma isnan_fill row : forall k, map isnan (fill row k) = map negb row.
Proof. induction row as [|[|] row IH]; intros k; cbn [fill map isnan negb]; [reflexivity|f_equal; apply IH|f_equal; apply IH]. Qed.
Lemma mask_array p q lls ns : (forall a b c, p a b c = q (negb (isnan a)) (negb (isnan b)) (negb (isnan c))) ->
  mask p (array lls ns) = map (fun ll => q (existsb (Z.eqb (-1)) ll) (existsb (Z.eqb 0) ll) (existsb (Z.eqb 1) ll)) lls.
Proof.
  intros Hp; unfold mask, array; cbn [row_m row_0 row_p].
  generalize 0 at 1; generalize (count_true (brow lls (-1))) at 1; generalize (count_true (brow lls (-1)) + count_true (brow lls 0)) at 1.
  unfold brow; induction lls as [|ll lls IH]; intros c b a; [reflexivity|].
  cbn [map fill]; destruct (existsb (Z.eqb (-1)) ll) eqn:E1, (existsb (Z.eqb 0) ll) eqn:E2, (existsb (Z.eqb 1) ll) eqn:E3;
    cbn [mask3]; rewrite Hp; cbn [isnan negb]; f_equal; apply IH.
Qed.
Lemma members_array p q lls ns : (forall a b c, p a b c = q (negb (isnan a)) (negb (isnan b)) (negb (isnan c))) ->
  members p (array lls ns) = filter (fun i => q (at_k lls i (-1)) (at_k lls i 0) (at_k lls i 1)) (seq 0 (List.length lls)).
Proof.
  intros Hp; unfold members; rewrite (mask_array p q) by exact Hp; rewrite (where_filter _ []); apply filter_ext; intros i; rewrite Nat.sub_0_r; reflexivity.
Qed.
Lemma count_array p q lls ns : (forall a b c, p a b c = q (negb (isnan a)) (negb (isnan b)) (negb (isnan c))) ->
  count p (array lls ns) = List.length (filter (fun i => q (at_k lls i (-1)) (at_k lls i 0) (at_k lls i 1)) (seq 0 (List.length lls))).
Proof. intros Hp; rewrite <- (members_array p q lls ns Hp); unfold members; rewrite where_length; reflexivity. Qed.
