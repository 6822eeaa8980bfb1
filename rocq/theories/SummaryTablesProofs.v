(** Proofs about the printed summaries. *)
From Verif Require Import Base Nd Indexing IndexingSpec IndexingProofs Semantics SummaryTables SummaryTablesSpec.
From Verif Require Summary SummaryProofs.
From Coq Require Import Sorted.

Lemma is_feature_iff fs x : is_feature fs x = true <-> In x fs.
Proof.
  unfold is_feature; rewrite existsb_exists; split; [intros (y & H & E); apply String.eqb_eq in E as ->; exact H|intros H; exists x; split; [exact H|apply String.eqb_refl]].
Qed.
Lemma all_features fs l : forallb (is_feature fs) l = true <-> forall f, In f l -> In f fs.
Proof. rewrite forallb_forall; split; intros H f Hf; apply is_feature_iff; auto. Qed.

Definition rereadable (o : only_arg) : Prop := forall l, o <> OnlyOnce l.
Lemma chosen_ok features o fs : rereadable o -> chosen features o = Ok fs <-> asks features o fs.
Proof.
  intros Hr; destruct o as [s|l|l|]; cbn [chosen].
  - destruct s as [|a s].
    + split; [intros E; injection E as <-; constructor|intros H; inversion H as [E|s0 N I E1 E2| |]; subst; [reflexivity|congruence]].
    + destruct (is_feature features (String a s)) eqn:E; split.
      * intros H; injection H as <-; constructor; [discriminate|apply is_feature_iff, E].
      * intros H; inversion H; reflexivity.
      * discriminate.
      * intros H; inversion H as [|s0 N I E1 E2| |]; subst; apply is_feature_iff in I; congruence.
  - destruct (forallb (is_feature features) l) eqn:E; split.
    + intros H; injection H as <-; constructor; apply all_features, E.
    + intros H; inversion H; reflexivity.
    + discriminate.
    + intros H; inversion H as [| |l0 I E1 E2|]; subst; apply all_features in I; congruence.
  - destruct (Hr l eq_refl).
  - split; [discriminate|intros H; inversion H].
Qed.
Lemma chosen_in features o fs : chosen features o = Ok fs -> forall f, In f fs -> In f features.
Proof.
  destruct o as [[|a s]|l|l|]; cbn [chosen]; [intros E; injection E as <-; auto| | | |discriminate].
  - destruct (is_feature features (String a s)) eqn:E; [|discriminate]; intros H; injection H as <-; intros f [<-|[]]; apply is_feature_iff, E.
  - destruct (forallb _ l) eqn:E; [|discriminate]; intros H; injection H as <-; apply all_features, E.
  - destruct (forallb _ l) eqn:E; [|discriminate]; intros H; injection H as <-; intros f [].
Qed.

Section Blocks.
  Variable B : Type.
  Variable wanted : string -> bool.
  Variable shows : string -> B -> Prop.
  Variable can : string -> Prop.
  Variable run : string -> res (list B).
  Variable features : list string.
  Hypothesis Hid : forall f, In f features -> wanted f = false -> run f = Ok [].
  Hypothesis Sh : forall f b, In f features -> wanted f = true -> run f = Ok b -> exists x, b = [x] /\ shows f x.
  Hypothesis Can : forall f, In f features -> wanted f = true -> (exists b, run f = Ok b) <-> can f.

  Lemma blocks_shown fs : (forall f, In f fs -> In f features) -> forall bs, mapM run fs = Ok bs -> prints wanted shows fs (concat bs).
  Proof using Hid Sh.
    induction fs as [|f fs IH]; intros Hin bs E; cbn [mapM] in E; [injection E as <-; constructor|].
    destruct (run f) as [b|] eqn:Er; [|discriminate E]; cbn [bind] in E.
    destruct (mapM run fs) as [bs'|] eqn:Em; [|discriminate E]; cbn [bind] in E; injection E as <-; cbn [concat].
    specialize (IH (fun x Hx => Hin x (or_intror Hx)) bs' eq_refl).
    destruct (wanted f) eqn:W.
    - destruct (Sh f b (Hin f (or_introl eq_refl)) W Er) as (x & -> & Hx); apply prints_shown; assumption.
    - rewrite (Hid f (Hin f (or_introl eq_refl)) W) in Er; injection Er as <-; apply prints_hidden; assumption.
  Qed.
  Lemma blocks_run fs : (forall f, In f fs -> In f features) ->
    (exists bs, mapM run fs = Ok bs) <-> forall f, In f fs -> wanted f = true -> can f.
  Proof using Hid Can.
    induction fs as [|f fs IH]; intros Hin; cbn [mapM]; [split; [intros _ f []|eauto]|].
    specialize (IH (fun x Hx => Hin x (or_intror Hx))); pose proof (Hin f (or_introl eq_refl)) as Hf.
    split.
    - intros (bs & E); destruct (run f) as [b|] eqn:Er; [|discriminate E]; cbn [bind] in E.
      destruct (mapM run fs) as [bs'|] eqn:Em; [|discriminate E].
      intros g [<-|Hg] W; [apply (Can f Hf W); eauto|apply IH; eauto].
    - intros H; destruct (proj2 IH) as (bs' & ->); [intros g Hg W; apply H; [right; exact Hg|exact W]|].
      destruct (wanted f) eqn:W.
      + destruct (proj2 (Can f Hf W) (H f (or_introl eq_refl) W)) as (b & ->); cbn [bind]; eauto.
      + rewrite (Hid f Hf W); cbn [bind]; eauto.
  Qed.
End Blocks.

Section Dict.
  Variable F : Type.
  Lemma update_keys (x : string) (y : F) d : forall p, In p (keys (update x y d)) <-> p = x \/ In p (keys d).
  Proof using.
    induction d as [|(k, w) d IH]; intros p; cbn [update keys map fst In]; [intuition congruence|].
    destruct (String.eqb_spec x k) as [->|N]; cbn [map fst In]; [intuition congruence|].
    unfold keys in IH; rewrite IH; intuition congruence.
  Qed.
  Lemma update_nodup (x : string) (y : F) d : NoDup (keys d) -> NoDup (keys (update x y d)).
  Proof using.
    induction d as [|(k, w) d IH]; intros N; cbn [update keys map fst]; [constructor; [intros []|constructor]|].
    destruct (String.eqb_spec x k) as [->|Ne]; [exact N|]; cbn [map fst]; inversion N as [|? ? H1 H2]; subst; constructor; [|apply IH, H2].
    intros H; apply (update_keys x y d) in H as [->|H]; [apply Ne; reflexivity|exact (H1 H)].
  Qed.
  Lemma update_lookup (x : string) (y : F) d p : lookup p (update x y d) = if String.eqb p x then Some y else lookup p d.
  Proof using.
    induction d as [|(k, w) d IH]; cbn [update lookup]; [reflexivity|].
    destruct (String.eqb_spec x k) as [->|Ne]; cbn [lookup]; [destruct (String.eqb_spec p k); reflexivity|].
    rewrite IH; destruct (String.eqb_spec p k) as [->|Np]; [destruct (String.eqb_spec k x); [congruence|reflexivity]|reflexivity].
  Qed.
  Lemma in_lookup (d : list (string * F)) p x : NoDup (keys d) -> In (p, x) d -> lookup p d = Some x.
  Proof using.
    induction d as [|(k, w) d IH]; intros N; [intros []|]; intros [E|H]; cbn [lookup].
    - injection E as -> ->; rewrite String.eqb_refl; reflexivity.
    - inversion N as [|? ? H1 H2]; subst; destruct (String.eqb_spec p k) as [->|_]; [|apply IH; assumption].
      destruct H1; exact (in_map fst _ _ H).
  Qed.
  Lemma fold_update (l : list (string * F)) : forall d, NoDup (keys d) ->
    let d' := fold_left (fun d q => update (fst q) (snd q) d) l d in
    NoDup (keys d') /\ (forall p, In p (keys d') <-> In p (keys d) \/ In p (keys l)) /\
    (NoDup (keys (d ++ l)) -> keys d' = keys d ++ keys l).
  Proof using.
    induction l as [|(k, w) l IH]; intros d N; cbn [fold_left fst snd].
    { split; [exact N|]; split; [intros p; unfold keys; cbn [map In]; tauto|intros _; unfold keys; cbn [map]; rewrite app_nil_r; reflexivity]. }
    destruct (IH (update k w d) (update_nodup k w d N)) as (A & B & D); split; [exact A|]; split.
    - intros p; rewrite B, update_keys; unfold keys; cbn [map fst In]; intuition congruence.
    - intros H; cbn zeta in D; unfold keys in H; rewrite map_app in H; cbn [map fst] in H.
      pose proof (NoDup_remove_2 _ _ _ H) as Nk; rewrite in_app_iff in Nk.
      rewrite D; rewrite (update_fresh k w d) by (intros X; apply Nk; left; exact X).
      + unfold keys; rewrite map_app; cbn [map fst]; rewrite <- app_assoc; reflexivity.
      + unfold keys; rewrite <- app_assoc; rewrite map_app; exact H.
  Qed.
  Lemma values_ok (calib : list (string * F)) l : 
    (forall p, In p l -> exists x, lookup p calib = Some x) ->
    exists vs, mapM (fun p => do x <- value_of F calib p; Ok (p, x)) l = Ok vs /\ keys vs = l /\ forall p x, In (p, x) vs -> lookup p calib = Some x.
  Proof using.
    induction l as [|p l IH]; intros H; [exists []; repeat split; intros p x []|].
    destruct (H p (or_introl eq_refl)) as (x & Ex); destruct (IH (fun q Hq => H q (or_intror Hq))) as (vs & E & K & L).
    exists ((p, x) :: vs); cbn [mapM]; unfold value_of at 1; rewrite Ex; cbn [bind]; rewrite E; cbn [bind]; split; [reflexivity|]; split; [cbn [keys map fst]; unfold keys in K; rewrite K; reflexivity|].
    intros q y [Eq|Hq]; [injection Eq as <- <-; exact Ex|auto].
  Qed.
  Lemma values_inv (calib : list (string * F)) l vs : mapM (fun p => do x <- value_of F calib p; Ok (p, x)) l = Ok vs -> forall p, In p l -> exists x, lookup p calib = Some x.
  Proof using.
    revert vs; induction l as [|p l IH]; intros vs E q Hq; [destruct Hq|]; cbn [mapM] in E; unfold value_of at 1 in E.
    destruct (lookup p calib) as [x|] eqn:Ex; [|discriminate E]; cbn [bind] in E.
    destruct (mapM _ l) as [vs'|]; [|discriminate E]; destruct Hq as [<-|Hq]; [eauto|exact (IH vs' eq_refl q Hq)].
  Qed.
  Lemma fold_values (calib : list (string * F)) vs : (forall p x, In (p, x) vs -> lookup p calib = Some x) -> forall d,
    (forall p x, lookup p d = Some x -> lookup p calib = Some x) ->
    forall p x, lookup p (fold_left (fun d q => update (fst q) (snd q) d) vs d) = Some x -> lookup p calib = Some x.
  Proof using.
    induction vs as [|(k, w) vs IH]; intros H d Hd p x; cbn [fold_left fst snd]; [apply Hd|].
    apply IH; [intros q y Hq; apply H; right; exact Hq|]; intros q y; rewrite update_lookup; destruct (String.eqb_spec q k) as [->|_]; [|apply Hd].
    intros E; injection E as <-; apply H; left; reflexivity.
  Qed.
  Lemma selection_ok (calib : list (string * F)) l d : selection F calib l = Ok d ->
    NoDup (map fst d) /\ (forall p, In p (map fst d) <-> In p l) /\ (NoDup l -> map fst d = l) /\ (forall p x, In (p, x) d -> lookup p calib = Some x).
  Proof using.
    unfold selection; destruct (mapM _ l) as [vs0|] eqn:E0; [|discriminate]; cbn [bind]; intros E; injection E as <-.
    destruct (values_ok calib l (values_inv calib l vs0 E0)) as (vs & E & K & L); rewrite E0 in E; injection E as ->.
    destruct (fold_update vs [] (NoDup_nil _)) as (A & B & D); cbn [app] in D; rewrite K in D; split; [exact A|]; split.
    - intros p; unfold keys in B, K; rewrite B, K; cbn [map In]; tauto.
    - split; [exact D|]; intros p x H; apply (in_lookup _ _ _ A) in H; revert H; apply (fold_values calib vs L); intros q y H; discriminate H.
  Qed.
  Lemma selection_runs (calib : list (string * F)) l : (forall p, In p l -> exists x, lookup p calib = Some x) -> exists d, selection F calib l = Ok d.
  Proof using. intros H; unfold selection; destruct (values_ok calib l H) as (vs & -> & _); cbn [bind]; eauto. Qed.
  Lemma keys_equal (d d' : list (string * F)) calib : NoDup (map fst d) -> NoDup (map fst d') -> (forall p, In p (map fst d) <-> In p (map fst d')) ->
    (forall p x, In (p, x) d -> lookup p calib = Some x) -> (forall p x, In (p, x) d' -> lookup p calib = Some x) ->
    forall x, In x (map snd d) <-> In x (map snd d').
  Proof using.
    intros N N' K L L'.
    assert (G : forall d d' : list (string * F), (forall p, In p (map fst d) -> In p (map fst d')) ->
      (forall p x, In (p, x) d -> lookup p calib = Some x) -> (forall p x, In (p, x) d' -> lookup p calib = Some x) -> forall x, In x (map snd d) -> In x (map snd d')).
    { intros e e' Ke Le Le' x H; apply in_map_iff in H as ((p & y) & <- & H); cbn [snd]; pose proof (in_map fst _ _ H) as Hp; apply Ke, in_map_iff in Hp as ((p' & y') & E & H').
      cbn [fst] in E; subst p'; apply Le in H as E1; apply Le' in H' as E2; rewrite E1 in E2; injection E2 as <-; exact (in_map snd _ _ H'). }
    intros x; split; [apply (G d d'); [intros p; apply K|exact L|exact L']|apply (G d' d); [intros p; apply K|exact L'|exact L]].
  Qed.
End Dict.

Section Tables.
  Variable F : Type.
  Variable kind : F -> fkind.

  Lemma is_kind_iff k x : is_kind F kind k x = true <-> kind x = k.
  Proof using. unfold is_kind; destruct k, (kind x); split; congruence. Qed.
  Lemma digits_ok l : (exists u, digits F kind l = Ok u) <-> printable F kind (fun x => In x l).
  Proof using.
    unfold digits, printable; destruct l as [|a l]; [split; [intros (u & H); discriminate H|intros (_ & x & [] & _)]|].
    set (L := a :: l).
    destruct (forallb (is_kind F kind KNan) L) eqn:En.
    { split; [intros (u & H); discriminate H|intros (_ & x & Hx & Kx)]; rewrite forallb_forall in En; apply En in Hx; apply is_kind_iff in Hx; congruence. }
    destruct (existsb (is_kind F kind KInf) L) eqn:Ei.
    { split; [intros (u & H); discriminate H|intros (H & _)]; apply existsb_exists in Ei as (x & Hx & Kx); apply is_kind_iff in Kx; destruct (H x Hx Kx). }
    destruct (existsb (is_kind F kind KFinite) L) eqn:Ef; split.
    - intros _; split; [intros x Hx Kx|].
      + assert (existsb (is_kind F kind KInf) L = true) by (apply existsb_exists; exists x; split; [exact Hx|apply is_kind_iff, Kx]); congruence.
      + apply existsb_exists in Ef as (x & Hx & Kx); apply is_kind_iff in Kx; eauto.
    - eauto.
    - intros (u & H); discriminate H.
    - intros (_ & x & Hx & Kx); assert (existsb (is_kind F kind KFinite) L = true) by (apply existsb_exists; exists x; split; [exact Hx|apply is_kind_iff, Kx]); congruence.
  Qed.
  Lemma printable_ext (P Q : F -> Prop) : (forall x, P x <-> Q x) -> printable F kind P <-> printable F kind Q.
  Proof using. intros E; unfold printable; split; intros (A & x & Hx & K); (split; [intros y Hy; apply A, E, Hy|exists x; split; [apply E, Hx|exact K]]). Qed.

  Definition rows_of (r c : nat) (h : nat -> nat -> F) : list (list F) := map (fun i => map (h i) (seq 0 c)) (seq 0 r).
  Lemma rows_in r c h x : In x (concat (rows_of r c h)) <-> exists i j, i < r /\ j < c /\ x = h i j.
  Proof using.
    unfold rows_of; rewrite in_concat; split.
    - intros (l & Hl & Hx); apply in_map_iff in Hl as (i & <- & Hi); apply in_map_iff in Hx as (j & <- & Hj); apply in_seq in Hi, Hj; exists i, j; repeat split; lia.
    - intros (i & j & Hi & Hj & ->); exists (map (h i) (seq 0 c)); split; apply in_map_iff; [exists i|exists j]; (split; [reflexivity|apply in_seq; lia]).
  Qed.
  Lemma digits_grid r c h : (exists u, digits F kind (concat (rows_of r c h)) = Ok u) <-> grid_printable F kind r c h.
  Proof using. rewrite digits_ok; apply printable_ext; intros x; apply rows_in. Qed.

  Lemma combine_rows (names : list string) r c h : r = List.length names ->
    combine names (rows_of r c h) = map (fun i => (nth i names ""%string, map (h i) (seq 0 c))) (seq 0 (List.length names)).
  Proof using.
    intros ->; unfold rows_of.
    assert (G : forall (l : list string) k, combine l (map (fun i => map (h i) (seq 0 c)) (seq k (List.length l))) =
      map (fun i => (nth (i - k) l ""%string, map (h i) (seq 0 c))) (seq k (List.length l))).
    { induction l as [|a l IH]; intros k; [reflexivity|]; cbn [List.length seq map combine]; rewrite Nat.sub_diag; cbn [nth]; f_equal.
      rewrite IH; apply map_ext_in; intros i Hi; apply in_seq in Hi; replace (i - k) with (S (i - S k)) by lia; reflexivity. }
    rewrite G; apply map_ext_in; intros i Hi; rewrite Nat.sub_0_r; reflexivity.
  Qed.

  Lemma summarize_shows title names labels r c h a : r = List.length names -> c = List.length labels ->
    summarize F kind (M2 r c h) labels = Ok a -> label_rows F title names a = grid F title names labels h.
  Proof using.
    intros Er Ec; cbn [summarize]; rewrite Ec, Nat.eqb_refl; fold (rows_of r (List.length labels) h).
    destruct (digits F kind _) as [u|]; [|discriminate]; cbn [bind]; intros E; injection E as <-.
    unfold label_rows, grid; cbn [fst snd]; f_equal; apply combine_rows, Er.
  Qed.
  Lemma summarize_runs labels r c h : c = List.length labels ->
    (exists a, summarize F kind (M2 r c h) labels = Ok a) <-> grid_printable F kind r c h.
  Proof using.
    intros ->; cbn [summarize]; rewrite Nat.eqb_refl; fold (rows_of r (List.length labels) h); rewrite <- digits_grid.
    destruct (digits F kind _) as [u|]; cbn [bind]; split; intros (x & H); try discriminate H; eauto.
  Qed.

  Variable C : Type.
  Variable re im modulus : C -> F.
  Variable argsort : list F -> list nat.
  Variable le : F -> F -> Prop.
  Hypothesis Sort : forall l, Permutation (argsort l) (seq 0 (List.length l)) /\
    forall d, StronglySorted (fun i j => le (nth i l d) (nth j l d)) (argsort l).

  Variable v : view F C.
  Variable named : list (string * list Z).
  Hypothesis Nd : NoDup (map fst named).
  Hypothesis Rg : in_range (map snd named).
  Hypothesis Ix : index_manager named (List.length (v_stoch F C v)) = Ok (v_indexes F C v).
  Let lls := map snd named.

  Lemma variables_shows : variables_str F C v = Ok (Counts F (counted F C v lls)).
  Proof using Nd Rg Ix.
    unfold variables_str, counted; rewrite (index_manager_array named _ Nd Rg) in Ix; injection Ix as <-; fold lls.
    rewrite (members_array is_state (fun m z p => m)) by (intros [a|] [b|] [d|]; reflexivity).
    rewrite (members_array is_forward (fun m z p => p)) by (intros [a|] [b|] [d|]; reflexivity).
    rewrite (members_array is_static (fun m z p => negb m && negb p)) by (intros [a|] [b|] [d|]; reflexivity).
    do 2 f_equal; apply filter_ext; intros (s & n); cbn [snd]; destruct n; reflexivity.
  Qed.

  Lemma take_eigs (eigs : list C) : exists order, Summary.take eigs (argsort (map modulus eigs)) = Ok order /\
    Permutation order eigs /\ StronglySorted (fun a b => le (modulus a) (modulus b)) order.
  Proof using Sort.
    destruct eigs as [|e0 eigs0].
    { destruct (Sort []) as (P & _); apply Permutation_sym, Permutation_nil in P; cbn [map]; rewrite P; exists []; repeat split; constructor. }
    set (eigs := e0 :: eigs0); destruct (Sort (map modulus eigs)) as (P & S); specialize (S (modulus e0)); rewrite map_length in P.
    set (l := argsort (map modulus eigs)) in *; exists (map (fun i => nth i eigs e0) l); split.
    { apply SummaryProofs.take_ok; intros i Hi; apply (Permutation_in _ P), in_seq in Hi; lia. }
    split.
    - transitivity (map (fun i => nth i eigs e0) (seq 0 (List.length eigs))); [apply Permutation_map, P|].
      assert (E : map (fun i => nth i eigs e0) (seq 0 (List.length eigs)) = eigs).
      { apply (nth_ext _ _ e0 e0); [rewrite map_length, seq_length; reflexivity|]; intros i Hi; rewrite map_length, seq_length in Hi.
        rewrite (nth_indep _ e0 (nth (List.length eigs) eigs e0)) by (rewrite map_length, seq_length; exact Hi).
        rewrite (map_nth (fun i => nth i eigs e0)); rewrite seq_nth by exact Hi; reflexivity. }
      rewrite E; reflexivity.
    - clear P; induction S as [|i l' S IH H]; cbn [map]; constructor; [exact IH|].
      rewrite Forall_forall in H |- *; intros y Hy; apply in_map_iff in Hy as (j & <- & Hj); specialize (H j Hj); cbn beta in H; rewrite !map_nth in H; exact H.
  Qed.
  Lemma eigen_shows b : eigen_str F kind C re im modulus argsort v = Ok b -> forall p, model_shows F C re im modulus le v lls p "eigen" b.
  Proof using Sort.
    unfold eigen_str; destruct (v_eigen F C v) as [eigs|] eqn:Ee; [|discriminate]; cbn [bind].
    destruct (take_eigs eigs) as (order & -> & P & S); cbn [bind]; destruct (existsb _ _); [|discriminate]; intros E p; injection E as <-.
    exact (shows_eigen F C re im modulus le v lls p eigs order Ee P S).
  Qed.
  Lemma eigen_runs p : (exists b, eigen_str F kind C re im modulus argsort v = Ok b) <-> model_prints F kind C re im modulus v p "eigen".
  Proof using Sort.
    unfold eigen_str; destruct (v_eigen F C v) as [eigs|] eqn:Ee; cbn [bind].
    2: { split; [intros (b & H); discriminate H|intros H; inversion H; congruence]. }
    destruct (take_eigs eigs) as (order & -> & P & S); cbn [bind].
    assert (Q : existsb (is_kind F kind KFinite) (map re order ++ map im order ++ map modulus order) = true <->
      exists e x, In e eigs /\ In x [re e; im e; modulus e] /\ kind x = KFinite).
    { rewrite existsb_exists; split.
      - intros (x & Hx & K); apply is_kind_iff in K; rewrite !in_app_iff, !in_map_iff in Hx.
        destruct Hx as [(e & <- & He)|[(e & <- & He)|(e & <- & He)]]; apply (Permutation_in _ P) in He; exists e; eexists; (split; [exact He|]); (split; [|exact K]); cbn [In]; auto.
      - intros (e & x & He & Hx & K); exists x; split; [|apply is_kind_iff, K]; apply (Permutation_in _ (Permutation_sym P)) in He; rewrite !in_app_iff.
        destruct Hx as [<-|[<-|[<-|[]]]]; [left|right; left|right; right]; apply in_map, He. }
    destruct (existsb _ _); split.
    - intros _; apply (prints_eigen F kind C re im modulus v p eigs Ee), Q; reflexivity.
    - eauto.
    - intros (b & H); discriminate H.
    - intros H; inversion H as [|eigs' E' X| |]; subst; rewrite Ee in E'; injection E' as <-; apply Q in X; discriminate X.
  Qed.

  Lemma stoch_shows b : stoch_str F kind C v = Ok b -> forall p, model_shows F C re im modulus le v lls p "stoch" b.
  Proof using.
    unfold stoch_str; destruct (longest (v_stoch F C v)); [|discriminate]; cbn [bind].
    destruct (v_sigma F C v) as [Sg|] eqn:Es; [|discriminate]; cbn [bind]; fold (rows_of (List.length (v_stoch F C v)) (List.length (v_stoch F C v)) Sg).
    destruct (digits F kind _); [|discriminate]; cbn [bind]; intros E p; injection E as <-; rewrite combine_rows by reflexivity.
    exact (shows_stoch F C re im modulus le v lls p Sg Es).
  Qed.
  Lemma stoch_runs p : (exists b, stoch_str F kind C v = Ok b) <-> model_prints F kind C re im modulus v p "stoch".
  Proof using.
    clear Ix; unfold stoch_str; destruct (v_stoch F C v) as [|a l] eqn:El; cbn [longest bind].
    { split; [intros (b & H); discriminate H|intros H; inversion H as [| |Sg Es (_ & x & (i & j & Hi & _) & _)|]; subst]; rewrite El in Hi; cbn in Hi; lia. }
    rewrite <- El; destruct (v_sigma F C v) as [Sg|] eqn:Es; cbn [bind].
    2: { split; [intros (b & H); discriminate H|intros H; inversion H; congruence]. }
    fold (rows_of (List.length (v_stoch F C v)) (List.length (v_stoch F C v)) Sg).
    pose proof (digits_grid (List.length (v_stoch F C v)) (List.length (v_stoch F C v)) Sg) as Q.
    destruct (digits F kind _); cbn [bind]; split.
    - intros _; apply (prints_stoch F kind C re im modulus v p Sg Es), Q; eauto.
    - eauto.
    - intros (b & H); discriminate H.
    - intros H; inversion H as [| |Sg' E' X|]; subst; rewrite Es in E'; injection E' as <-; apply Q in X as (u & X); discriminate X.
  Qed.

  (** A string that is not "all" is one letter. *)
  Definition short_params (p : params_arg) : Prop := forall s, p = ParamsText s -> s = "all"%string \/ String.length s <= 1.

  Lemma print_ok title d t : print_calibration F kind title d = Ok t -> t = calibration_table F title d.
  Proof using.
    unfold print_calibration; destruct (longest _); [|discriminate]; cbn [bind]; destruct (digits F kind _); [|discriminate]; cbn [bind]; intros E; injection E as <-; reflexivity.
  Qed.
  Lemma print_runs title d : (exists t, print_calibration F kind title d = Ok t) <-> printable F kind (fun x => In x (map snd d)).
  Proof using.
    unfold print_calibration; rewrite <- digits_ok; destruct d as [|q d]; cbn [map longest bind].
    { split; [intros (t & H); discriminate H|intros (u & H); discriminate H]. }
    destruct (digits F kind _); cbn [bind]; split; intros (x & H); try discriminate H; eauto.
  Qed.
  Lemma letters_one s : String.length s <= 1 -> s <> ""%string -> letters s = [s].
  Proof using. destruct s as [|a [|b s]]; cbn; intros H N; [congruence|reflexivity|lia]. Qed.

  Lemma params_shows p b : short_params p -> params_true p = true -> params_str F kind C p v = Ok b -> model_shows F C re im modulus le v lls p "params" b.
  Proof using.
    intros Sp Tr; unfold params_str.
    assert (G : forall title d b, wants_params F (v_calib F C v) p title d -> (do t <- print_calibration F kind title d; Ok (Shown F t)) = Ok b -> model_shows F C re im modulus le v lls p "params" b).
    { intros title d b' W E; destruct (print_calibration F kind title d) as [t|] eqn:Ep; [|discriminate E]; injection E as <-; apply print_ok in Ep as ->; exact (shows_params F C re im modulus le v lls p title d W). }
    destruct p as [s|l|[]].
    - destruct (String.eqb_spec s "all") as [->|N]; cbn [bind fst snd]; [apply G; constructor|].
      destruct (Sp s eq_refl) as [|Hl]; [congruence|]; rewrite letters_one; [|exact Hl|intros ->; discriminate Tr].
      destruct (selection F (v_calib F C v) [s]) as [d|] eqn:Ed; [|discriminate]; cbn [bind fst snd]; apply G.
      destruct (selection_ok F _ _ _ Ed) as (A & B & D & L).
      assert (K : map fst d = [s]) by (apply D; repeat constructor; intros []).
      destruct d as [|(q, x) [|]]; try discriminate K; injection K as ->; constructor; [exact N|apply L; left; reflexivity].
    - destruct (selection F (v_calib F C v) l) as [d|] eqn:Ed; [|discriminate]; cbn [bind fst snd]; apply G.
      destruct (selection_ok F _ _ _ Ed) as (A & B & D & L); constructor; assumption.
    - discriminate.
    - discriminate Tr.
  Qed.
  Lemma params_runs p : short_params p -> params_true p = true -> (exists b, params_str F kind C p v = Ok b) <-> model_prints F kind C re im modulus v p "params".
  Proof using.
    intros Sp Tr; unfold params_str.
    assert (G : forall title d, wants_params F (v_calib F C v) p title d ->
      (forall title' d', wants_params F (v_calib F C v) p title' d' -> forall x, In x (map snd d) <-> In x (map snd d')) ->
      (exists b, (do t <- print_calibration F kind title d; Ok (Shown F t)) = Ok b) <-> model_prints F kind C re im modulus v p "params").
    { intros title d W U; pose proof (print_runs title d) as Q; split.
      - intros (b & E); apply (prints_params F kind C re im modulus v p title d W), Q; destruct (print_calibration F kind title d) as [t|]; [eauto|discriminate E].
      - intros H; inversion H as [| | |title' d' W' X]; subst; apply (printable_ext _ _ (U title' d' W')), Q in X as (t & ->); cbn [bind]; eauto. }
    destruct p as [s|l|[]].
    - destruct (String.eqb_spec s "all") as [->|N]; cbn [bind fst snd].
      { apply G; [constructor|]; intros title' d' W x; inversion W; subst; [tauto|congruence]. }
      destruct (Sp s eq_refl) as [|Hl]; [congruence|]; rewrite letters_one; [|exact Hl|intros ->; discriminate Tr].
      destruct (selection F (v_calib F C v) [s]) as [d|] eqn:Ed; cbn [bind fst snd].
      + destruct (selection_ok F _ _ _ Ed) as (A & B & D & L).
        assert (K : map fst d = [s]) by (apply D; repeat constructor; intros []).
        destruct d as [|(q, x) [|]]; try discriminate K; injection K as ->.
        pose proof (L s x (or_introl eq_refl)) as Lx; apply G; [constructor; assumption|].
        intros title' d' W y; inversion W; subst; [congruence|]; match goal with H : lookup s _ = Some ?z |- _ => rewrite Lx in H; injection H as <- end; tauto.
      + split; [intros (b & H); discriminate H|intros H; inversion H as [| | |title' d' W X]; subst]; inversion W as [|s' x N' Lx|]; subst; [congruence|].
        destruct (selection_runs F (v_calib F C v) [s]) as (d & Hd); [intros q [<-|[]]; eauto|congruence].
    - destruct (selection F (v_calib F C v) l) as [d|] eqn:Ed; cbn [bind fst snd].
      + destruct (selection_ok F _ _ _ Ed) as (A & B & D & L); apply G; [constructor; assumption|].
        intros title' d' W x; inversion W as [| |l' d'' A' B' D' L']; subst; apply (keys_equal F d d' (v_calib F C v) A A'); [intros q; rewrite B, B'; tauto|exact L|exact L'].
      + split; [intros (b & H); discriminate H|intros H; inversion H as [| | |title' d' W X]; subst]; inversion W as [| |l' d'' A' B' D' L']; subst.
        destruct (selection_runs F (v_calib F C v) l) as (d & Hd); [|congruence]; intros q Hq; apply B', in_map_iff in Hq as ((q' & x) & E & H'); cbn [fst] in E; subst q'; eauto.
    - split; [intros (b & H); discriminate H|intros H; inversion H as [| | |title' d' W X]; subst; inversion W].
    - discriminate Tr.
  Qed.
End Tables.

Section Model.
  Variable F : Type.
  Variable kind : F -> fkind.
  Variable C : Type.
  Variable re im modulus : C -> F.
  Variable argsort : list F -> list nat.
  Variable le : F -> F -> Prop.
  Hypothesis Sort : forall l, Permutation (argsort l) (seq 0 (List.length l)) /\
    forall d, StronglySorted (fun i j => le (nth i l d) (nth j l d)) (argsort l).
  Variable v : view F C.
  Variable named : list (string * list Z).
  Hypothesis Nd : NoDup (map fst named).
  Hypothesis Rg : in_range (map snd named).
  Hypothesis Ix : index_manager named (List.length (v_stoch F C v)) = Ok (v_indexes F C v).
  Variable k : model_keys.

  Lemma params_wanted : params_true (k_params k) = match k_params k with ParamsText "" | ParamsMany [] | ParamsOther false => false | _ => true end.
  Proof using. destruct (k_params k) as [[|]|[|]|[]]; reflexivity. Qed.

  Notation run := (model_block F kind C re im modulus argsort k v).
  Lemma show_some (b : bool) (r : res (block F)) x : show F b r = Ok x -> if b then exists y, r = Ok y /\ x = [y] else x = [].
  Proof using. unfold show; destruct b; [destruct r as [y|]; [|discriminate]; cbn [bind]; intros E; injection E as <-; eauto|intros E; injection E as <-; reflexivity]. Qed.
  Lemma show_runs (b : bool) (r : res (block F)) : (exists x, show F b r = Ok x) <-> b = false \/ exists y, r = Ok y.
  Proof using.
    unfold show; destruct b; [destruct r as [y|]|]; cbn [bind]; split; try (intros (x & H); discriminate H); try (intros [H|(y & H)]; discriminate H); eauto.
  Qed.

  Lemma model_hidden f : In f model_features -> wanted k f = false -> run f = Ok [].
  Proof using.
    unfold model_features, wanted, model_block; pose proof params_wanted as P; intros [<-|[<-|[<-|[<-|[]]]]]; cbn [String.eqb Ascii.eqb Bool.eqb negb]; intros W.
    - destruct (k_variables k); [|reflexivity]; rewrite !orb_true_r, !andb_true_r in W; destruct (k_params k) as [[|]|[|]|[]]; discriminate W.
    - destruct (k_eigen k); [|reflexivity]; rewrite !orb_true_r, !andb_true_r in W; destruct (k_params k) as [[|]|[|]|[]]; discriminate W.
    - destruct (k_stoch k); [|reflexivity]; rewrite !orb_true_r, !andb_true_r in W; destruct (k_params k) as [[|]|[|]|[]]; discriminate W.
    - rewrite !orb_true_r, !andb_true_r in W; rewrite P; destruct (k_params k) as [[|]|[|]|[]]; try discriminate W; reflexivity.
  Qed.
  Lemma wanted_key f : In f model_features -> wanted k f = true ->
    (f = "variables" /\ k_variables k = true \/ f = "eigen" /\ k_eigen k = true \/ f = "stoch" /\ k_stoch k = true \/ f = "params" /\ params_true (k_params k) = true)%string.
  Proof using.
    unfold model_features, wanted; pose proof params_wanted as P; intros [<-|[<-|[<-|[<-|[]]]]]; cbn [String.eqb Ascii.eqb Bool.eqb negb]; intros W.
    - left; split; [reflexivity|]; destruct (k_variables k); [reflexivity|]; rewrite !orb_true_r, !andb_true_r, !andb_false_r in W; discriminate W.
    - right; left; split; [reflexivity|]; destruct (k_eigen k); [reflexivity|]; rewrite !orb_true_r, !andb_true_r, !andb_false_r in W; discriminate W.
    - right; right; left; split; [reflexivity|]; destruct (k_stoch k); [reflexivity|]; rewrite !orb_true_r, !andb_false_r in W; discriminate W.
    - right; right; right; split; [reflexivity|]; rewrite !orb_true_r, !andb_true_r in W; rewrite P; destruct (k_params k) as [[|]|[|]|[]]; try discriminate W; reflexivity.
  Qed.
  Hypothesis Sp : short_params (k_params k).
  Lemma model_shown f b : In f model_features -> wanted k f = true -> run f = Ok b ->
    exists x, b = [x] /\ model_shows F C re im modulus le v (map snd named) (k_params k) f x.
  Proof using Sort Nd Rg Ix Sp.
    intros Hf W; destruct (wanted_key f Hf W) as [(-> & K)|[(-> & K)|[(-> & K)|(-> & K)]]]; unfold model_block; cbn [String.eqb Ascii.eqb Bool.eqb];
      rewrite K; intros E; apply show_some in E as (y & E & ->); exists y; (split; [reflexivity|]).
    - rewrite (variables_shows F C v named Nd Rg Ix) in E; injection E as <-; constructor.
    - exact (eigen_shows F kind C re im modulus argsort le Sort v named y E _).
    - exact (stoch_shows F kind C re im modulus le v named y E _).
    - exact (params_shows F kind C re im modulus le v named _ y Sp K E).
  Qed.
  Lemma model_can f : In f model_features -> wanted k f = true -> (exists b, run f = Ok b) <-> model_prints F kind C re im modulus v (k_params k) f.
  Proof using Sort Sp.
    intros Hf W; destruct (wanted_key f Hf W) as [(-> & K)|[(-> & K)|[(-> & K)|(-> & K)]]]; unfold model_block; cbn [String.eqb Ascii.eqb Bool.eqb];
      rewrite K, show_runs.
    - split; [intros _; constructor|intros _; right; unfold variables_str; eauto].
    - rewrite <- (eigen_runs F kind C re im modulus argsort le Sort v (k_params k)); split; [intros [H|H]; [discriminate H|exact H]|auto].
    - rewrite <- (stoch_runs F kind C re im modulus v (k_params k)); split; [intros [H|H]; [discriminate H|exact H]|auto].
    - rewrite <- (params_runs F kind C re im modulus v (k_params k) Sp K); split; [intros [H|H]; [discriminate H|exact H]|auto].
  Qed.
  Lemma summary_shows bs : rereadable (k_only k) -> model_summary F kind C re im modulus argsort k v = Ok bs ->
    exists fs, asks model_features (k_only k) fs /\ prints (wanted k) (model_shows F C re im modulus le v (map snd named) (k_params k)) fs bs.
  Proof using Sort Nd Rg Ix Sp.
    intros Hr; unfold model_summary; destruct (chosen model_features (k_only k)) as [fs|] eqn:Ec; [|discriminate]; cbn [bind].
    destruct (mapM run fs) as [l|] eqn:Em; [|discriminate]; cbn [bind]; intros E; injection E as <-.
    exists fs; split; [apply chosen_ok; assumption|].
    exact (blocks_shown _ _ _ run model_features model_hidden model_shown fs (chosen_in _ _ _ Ec) l Em).
  Qed.
  Lemma summary_runs : rereadable (k_only k) ->
    (exists bs, model_summary F kind C re im modulus argsort k v = Ok bs) <->
    exists fs, asks model_features (k_only k) fs /\ forall f, In f fs -> wanted k f = true -> model_prints F kind C re im modulus v (k_params k) f.
  Proof using Sort Sp.
    intros Hr; unfold model_summary; destruct (chosen model_features (k_only k)) as [fs|] eqn:Ec; cbn [bind].
    2: { split; [intros (b & H); discriminate H|intros (fs & H & _); apply chosen_ok in H; [congruence|exact Hr]]. }
    pose proof (blocks_run _ (wanted k) (model_prints F kind C re im modulus v (k_params k)) run model_features model_hidden model_can fs (chosen_in _ _ _ Ec)) as Q.
    split.
    - intros (bs & E); exists fs; split; [apply chosen_ok; assumption|]; apply Q; destruct (mapM run fs) as [l|]; [eauto|discriminate E].
    - intros (fs' & A & H); apply chosen_ok in A; [|exact Hr]; rewrite Ec in A; injection A as <-; apply Q in H as (l & ->); cbn [bind]; eauto.
  Qed.
End Model.

Section Ext.
  Variable F : Type.
  Variable kind : F -> fkind.
  Lemma grid_ext title names columns (h h' : nat -> nat -> F) : (forall i j, i < List.length names -> j < List.length columns -> h i j = h' i j) ->
    grid F title names columns h = grid F title names columns h'.
  Proof using.
    intros E; unfold grid; f_equal; apply map_ext_in; intros i Hi; apply in_seq in Hi; f_equal; apply map_ext_in; intros j Hj; apply in_seq in Hj; apply E; lia.
  Qed.
  Lemma grid_printable_ext r c (h h' : nat -> nat -> F) : (forall i j, i < r -> j < c -> h i j = h' i j) -> grid_printable F kind r c h <-> grid_printable F kind r c h'.
  Proof using.
    intros E; unfold grid_printable; apply printable_ext; intros x; split; intros (i & j & Hi & Hj & ->); exists i, j; (split; [exact Hi|]); (split; [exact Hj|]); [|symmetry]; apply E; assumption.
  Qed.
End Ext.

Section Statistics.
  Variable F : Type.
  Variable kind : F -> fkind.
  Variable mul : F -> F -> F.
  Variable s : stats F.
  Variables mean std : nat -> F.
  Variable corr : nat -> nat -> F.
  Variable auto : nat -> nat -> nat -> F.
  Variable shares : nat -> nat -> F.
  Hypothesis Sd : shaped F s mean std corr auto shares.
  Variable k : stats_keys.
  Let n := List.length (s_endog F s).

  Lemma moments_is : moments_str F kind mul s =
    (do a <- summarize F kind (M2 n 3 (fun i j => (fun a b => if a <? 2 then (if a <? 1 then mean b else std b) else mul (std b) (std b)) j i)) ["mean"; "std dev"; "var"]%string;
     Ok (Shown F (label_rows F "model moments:" (s_endog F s) a))).
  Proof using Sd.
    destruct Sd as [Em Es _ _ _ _]; unfold moments_str; rewrite Em, Es; cbn [bind]; fold n.
    assert (St : forall r r' f f', stack2 F (r, n, f) (r', n, f') = Ok (r + r', n, fun i j => if i <? r then f i j else f' (i - r) j)) by (intros; unfold stack2; rewrite Nat.eqb_refl; reflexivity).
    cbn [as_rows nmap1]; rewrite St; cbn [bind]; rewrite St; reflexivity.
  Qed.
  Lemma moment_entry i j : j < 3 -> (fun a b => if a <? 2 then (if a <? 1 then mean b else std b) else mul (std b) (std b)) j i = moment F mul mean std i j.
  Proof using. clear n; intros H; destruct j as [|[|[|]]]; try reflexivity; lia. Qed.
  Lemma moments_shows b : moments_str F kind mul s = Ok b -> b = Shown F (grid F "model moments:" (s_endog F s) ["mean"; "std dev"; "var"]%string (moment F mul mean std)).
  Proof using Sd.
    rewrite moments_is; destruct (summarize F kind _ _) as [a|] eqn:Ea; [|discriminate]; cbn [bind]; intros E; injection E as <-; f_equal.
    rewrite (summarize_shows F kind "model moments:" (s_endog F s) ["mean"; "std dev"; "var"]%string n 3 _ a eq_refl eq_refl Ea).
    apply grid_ext; intros i j _ Hj; apply moment_entry, Hj.
  Qed.
  Lemma moments_runs : (exists b, moments_str F kind mul s = Ok b) <-> grid_printable F kind n 3 (moment F mul mean std).
  Proof using Sd.
    rewrite moments_is; rewrite <- (grid_printable_ext F kind n 3 _ _ (fun i j _ Hj => moment_entry i j Hj)).
    rewrite <- (summarize_runs F kind ["mean"; "std dev"; "var"]%string n 3 _ eq_refl).
    destruct (summarize F kind _ _) as [a|]; cbn [bind]; split; intros (x & H); try discriminate H; eauto.
  Qed.
  Lemma corr_shows b : corr_str F kind s = Ok b -> b = Shown F (grid F "correlation:" (s_endog F s) (s_endog F s) corr).
  Proof using Sd.
    destruct Sd as [_ _ Ec _ _ _]; unfold corr_str; rewrite Ec; cbn [bind]; destruct (summarize F kind _ _) as [a|] eqn:Ea; [|discriminate]; cbn [bind].
    destruct (longest _); [|discriminate]; cbn [bind]; intros E; injection E as <-; f_equal; exact (summarize_shows F kind _ _ _ _ _ _ a eq_refl eq_refl Ea).
  Qed.
  Lemma corr_runs : (exists b, corr_str F kind s = Ok b) <-> grid_printable F kind n n corr.
  Proof using Sd.
    destruct Sd as [_ _ Ec _ _ _]; unfold corr_str; rewrite Ec; cbn [bind]; rewrite <- (summarize_runs F kind (s_endog F s) n n corr eq_refl); fold n.
    pose proof (summarize_runs F kind (s_endog F s) n n corr eq_refl) as Q.
    destruct (summarize F kind (M2 n n corr) (s_endog F s)) as [w|]; cbn [bind]; [|split; intros (x & H); discriminate H].
    split; [eauto|intros _]; destruct (proj1 Q (ex_intro _ w eq_refl)) as (_ & x & (i & j & Hi & _) & _); unfold n in Hi.
    destruct (s_endog F s); [cbn in Hi; lia|cbn [longest bind]; eauto].
  Qed.
  Lemma diagonals p : mapM (diagonal F) (map (fun i => M2 n n (auto i)) (seq 0 p)) = Ok (map (fun i => (n, fun x => auto i x x)) (seq 0 p)).
  Proof using.
    generalize 0; induction p as [|p IH]; intros o; [reflexivity|]; cbn [seq map mapM diagonal bind]; rewrite IH, Nat.min_id; reflexivity.
  Qed.
  Lemma autocorr_is p : (0 < p)%Z -> exists h, autocorr_str F kind p s =
    (do a <- summarize F kind (M2 n (Z.to_nat p) h) (map lag_label (seq 0 (Z.to_nat p)));
     Ok (Shown F (label_rows F "autocovariance of endogenous variables:" (s_endog F s) a))) /\
    forall i j, j < Z.to_nat p -> h i j = auto j i i.
  Proof using Sd.
    intros Hp; destruct Sd as [_ _ _ Ea _ _]; unfold autocorr_str; rewrite Ea by lia; cbn [bind]; fold n; rewrite diagonals; cbn [bind].
    set (l := map (fun i => (n, fun x => auto i x x)) (seq 0 (Z.to_nat p))).
    assert (Ll : List.length l = Z.to_nat p) by (unfold l; rewrite map_length, seq_length; reflexivity).
    assert (Al : forallb (fun q => fst q =? n) l = true) by (apply forallb_forall; intros q Hq; apply in_map_iff in Hq as (i & <- & _); apply Nat.eqb_refl).
    assert (Nl : forall j d, j < Z.to_nat p -> nth j l d = (n, fun x => auto j x x)).
    { intros j d Hj; unfold l; rewrite (nth_indep _ d (n, fun x => auto 0 x x)) by (rewrite map_length, seq_length; exact Hj).
      rewrite (map_nth (fun i => (n, fun x => auto i x x))); rewrite seq_nth by exact Hj; reflexivity. }
    destruct l as [|(m, h) l'] eqn:El; [cbn in Ll; lia|].
    assert (m = n) as ->.
    { cbn [forallb fst] in Al; apply andb_true_iff in Al as [Al _]; apply Nat.eqb_eq in Al; exact Al. }
    unfold side_by_side; rewrite Al, Ll; cbn [bind]; eexists; split; [reflexivity|]; intros i j Hj; cbv beta; rewrite (Nl j _ Hj); reflexivity.
  Qed.
  Lemma autocorr_shows p b : (0 < p)%Z -> autocorr_str F kind p s = Ok b ->
    b = Shown F (grid F "autocovariance of endogenous variables:" (s_endog F s) (map lag_label (seq 0 (Z.to_nat p))) (fun v i => auto i v v)).
  Proof using Sd.
    intros Hp; destruct (autocorr_is p Hp) as (h & -> & Hh); destruct (summarize F kind _ _) as [a|] eqn:Ea; [|discriminate]; cbn [bind]; intros E; injection E as <-; f_equal.
    assert (L : Z.to_nat p = List.length (map lag_label (seq 0 (Z.to_nat p)))) by (rewrite map_length, seq_length; reflexivity).
    rewrite (summarize_shows F kind _ _ _ _ _ _ a eq_refl L Ea); apply grid_ext; intros i j _ Hj; apply Hh; rewrite <- L in Hj; exact Hj.
  Qed.
  Lemma autocorr_runs p : (0 < p)%Z -> (exists b, autocorr_str F kind p s = Ok b) <-> grid_printable F kind n (Z.to_nat p) (fun v i => auto i v v).
  Proof using Sd.
    intros Hp; destruct (autocorr_is p Hp) as (h & -> & Hh); rewrite <- (grid_printable_ext F kind n (Z.to_nat p) h _ (fun i j _ Hj => Hh i j Hj)).
    assert (L : Z.to_nat p = List.length (map lag_label (seq 0 (Z.to_nat p)))) by (rewrite map_length, seq_length; reflexivity).
    rewrite <- (summarize_runs F kind _ n (Z.to_nat p) h L).
    destruct (summarize F kind _ _) as [a|]; cbn [bind]; split; intros (x & H); try discriminate H; eauto.
  Qed.
  Lemma autocorr_negative p : (p < 0)%Z -> autocorr_str F kind p s = Err ValueErr.
  Proof using Sd. intros Hp; destruct Sd as [_ _ _ _ En _]; unfold autocorr_str; rewrite En by exact Hp; reflexivity. Qed.
  Lemma decomp_shows b : decomp_str F kind s = Ok b -> b = Shown F (grid F "variance decomposition:" (s_endog F s) (s_stoch F s) shares).
  Proof using Sd.
    destruct Sd as [_ _ _ _ _ Ed]; unfold decomp_str; rewrite Ed; cbn [bind]; destruct (summarize F kind _ _) as [a|] eqn:Ea; [|discriminate]; cbn [bind].
    intros E; injection E as <-; f_equal; exact (summarize_shows F kind _ _ _ _ _ _ a eq_refl eq_refl Ea).
  Qed.
  Lemma decomp_runs : (exists b, decomp_str F kind s = Ok b) <-> grid_printable F kind n (List.length (s_stoch F s)) shares.
  Proof using Sd.
    destruct Sd as [_ _ _ _ _ Ed]; unfold decomp_str; rewrite Ed; cbn [bind]; rewrite <- (summarize_runs F kind (s_stoch F s) n _ shares eq_refl); fold n.
    destruct (summarize F kind _ _) as [a|]; cbn [bind]; split; intros (x & H); try discriminate H; eauto.
  Qed.

  Notation run := (stats_block F kind mul k s).
  Lemma stats_hidden f : In f stats_features -> wanted_stats k f = false -> run f = Ok [].
  Proof using.
    unfold stats_features, wanted_stats, stats_block; intros [<-|[<-|[<-|[<-|[]]]]]; cbn [String.eqb Ascii.eqb Bool.eqb negb]; rewrite !orb_true_r, ?andb_true_r; cbn [andb]; rewrite ?orb_false_r; intros ->; reflexivity.
  Qed.
  Lemma wanted_stats_key f : In f stats_features -> wanted_stats k f = true ->
    (f = "moments" /\ k_moments k = true \/ f = "corr" /\ k_corr k = true \/ f = "autocorr" /\ negb (k_autocorr k =? 0)%Z = true \/ f = "decomp" /\ k_decomp k = true)%string.
  Proof using.
    unfold stats_features, wanted_stats; intros [<-|[<-|[<-|[<-|[]]]]]; cbn [String.eqb Ascii.eqb Bool.eqb negb]; rewrite !orb_true_r, ?andb_true_r; cbn [andb]; rewrite ?orb_false_r; intros W; auto 7.
  Qed.
  Lemma stats_shown f b : In f stats_features -> wanted_stats k f = true -> run f = Ok b ->
    exists x, b = [x] /\ stats_shows F mul lag_label (s_endog F s) (s_stoch F s) (k_autocorr k) mean std corr auto shares f x.
  Proof using Sd.
    intros Hf W; destruct (wanted_stats_key f Hf W) as [(-> & K)|[(-> & K)|[(-> & K)|(-> & K)]]]; unfold stats_block; cbn [String.eqb Ascii.eqb Bool.eqb];
      rewrite K; intros E; apply show_some in E as (y & E & ->); exists y; (split; [reflexivity|]).
    - apply moments_shows in E as ->; constructor.
    - apply corr_shows in E as ->; constructor.
    - destruct (Z.ltb_spec (k_autocorr k) 0) as [Hn|Hn]; [rewrite (autocorr_negative _ Hn) in E; discriminate E|].
      assert (0 < k_autocorr k)%Z by (destruct (Z.eqb_spec (k_autocorr k) 0); [discriminate K|lia]).
      apply autocorr_shows in E as ->; [constructor; assumption|assumption].
    - apply decomp_shows in E as ->; constructor.
  Qed.
  Lemma stats_can f : In f stats_features -> wanted_stats k f = true ->
    (exists b, run f = Ok b) <-> stats_prints F kind mul (s_endog F s) (s_stoch F s) (k_autocorr k) mean std corr auto shares f.
  Proof using Sd.
    assert (T : forall (P Q : Prop), (P <-> Q) -> (true = false \/ P) <-> Q) by (intros P Q H; rewrite H; split; [intros [X|X]; [discriminate X|exact X]|auto]).
    intros Hf W; destruct (wanted_stats_key f Hf W) as [(-> & K)|[(-> & K)|[(-> & K)|(-> & K)]]]; unfold stats_block; cbn [String.eqb Ascii.eqb Bool.eqb];
      rewrite K, show_runs; apply T.
    - rewrite moments_runs; split; [intros H; constructor; exact H|intros H; inversion H; assumption].
    - rewrite corr_runs; split; [intros H; constructor; exact H|intros H; inversion H; assumption].
    - destruct (Z.ltb_spec (k_autocorr k) 0) as [Hn|Hn].
      { rewrite (autocorr_negative _ Hn); split; [intros (b & H); discriminate H|intros H; inversion H; lia]. }
      assert (0 < k_autocorr k)%Z by (destruct (Z.eqb_spec (k_autocorr k) 0); [discriminate K|lia]).
      rewrite autocorr_runs by assumption; split; [intros H'; constructor; assumption|intros H'; inversion H'; assumption].
    - rewrite decomp_runs; split; [intros H; constructor; exact H|intros H; inversion H; assumption].
  Qed.
  Lemma stats_summary_shows bs : rereadable (k_only_stats k) -> stats_summary F kind mul k s = Ok bs ->
    exists fs, asks stats_features (k_only_stats k) fs /\
      prints (wanted_stats k) (stats_shows F mul lag_label (s_endog F s) (s_stoch F s) (k_autocorr k) mean std corr auto shares) fs bs.
  Proof using Sd.
    intros Hr; unfold stats_summary; destruct (chosen stats_features (k_only_stats k)) as [fs|] eqn:Ec; [|discriminate]; cbn [bind].
    destruct (mapM run fs) as [l|] eqn:Em; [|discriminate]; cbn [bind]; intros E; injection E as <-.
    exists fs; split; [apply chosen_ok; assumption|].
    exact (blocks_shown _ _ _ run stats_features stats_hidden stats_shown fs (chosen_in _ _ _ Ec) l Em).
  Qed.
  Lemma stats_summary_runs : rereadable (k_only_stats k) ->
    (exists bs, stats_summary F kind mul k s = Ok bs) <->
    exists fs, asks stats_features (k_only_stats k) fs /\ forall f, In f fs -> wanted_stats k f = true ->
      stats_prints F kind mul (s_endog F s) (s_stoch F s) (k_autocorr k) mean std corr auto shares f.
  Proof using Sd.
    intros Hr; unfold stats_summary; destruct (chosen stats_features (k_only_stats k)) as [fs|] eqn:Ec; cbn [bind].
    2: { split; [intros (b & H); discriminate H|intros (fs & H & _); apply chosen_ok in H; [congruence|exact Hr]]. }
    pose proof (blocks_run _ (wanted_stats k) (stats_prints F kind mul (s_endog F s) (s_stoch F s) (k_autocorr k) mean std corr auto shares)
      run stats_features stats_hidden stats_can fs (chosen_in _ _ _ Ec)) as Q.
    split.
    - intros (bs & E); exists fs; split; [apply chosen_ok; assumption|]; apply Q; destruct (mapM run fs) as [l|]; [eauto|discriminate E].
    - intros (fs' & A & H); apply chosen_ok in A; [|exact Hr]; rewrite Ec in A; injection A as <-; apply Q in H as (l & ->); cbn [bind]; eauto.
  Qed.
End Statistics.
