(** A model that is solved has all its variables in the current period. *)
From Verif Require Import Base Nd NdProofs Mat MatProofs Indexing IndexingSpec IndexingProofs IndexingProofs2 Moments FirstOrder FirstOrderProofs FirstOrderProofs4.
From Coq Require Import ZArith.
Local Open Scope nat_scope.

(** ** The columns of the variables with a lag or a lead, at the current date *)

Lemma not_nan_length l : List.length (not_nan l) = List.length (filter (fun o => negb (isnan o)) l).
Proof. induction l as [|[a|] l IH]; cbn; auto. Qed.
Lemma filter_length_le {A} (f : A -> bool) l : List.length (filter f l) <= List.length l.
Proof. induction l as [|a l IH]; cbn; [lia|]; destruct (f a); cbn; lia. Qed.
Lemma filter_full {A} (f g : A -> bool) l : (forall i, In i l -> f i = true -> g i = true) -> List.length (filter g l) <= List.length (filter f l) ->
  forall i, In i l -> g i = true -> f i = true.
Proof.
  induction l as [|a l IH]; intros H Hl i Hi Hg; [contradiction|].
  assert (LE : List.length (filter f l) <= List.length (filter g l)).
  { clear - H; assert (K : forall i, In i l -> f i = true -> g i = true) by (intros i Hi; apply H; right; exact Hi); clear H.
    induction l as [|b l IH]; cbn; [lia|]; specialize (IH (fun i Hi => K i (or_intror Hi))); pose proof (K b (or_introl eq_refl)).
    destruct (f b), (g b); cbn; try lia; specialize (H eq_refl); discriminate. }
  cbn [filter] in Hl; pose proof (H a (or_introl eq_refl)) as Ha; destruct Hi as [<-|Hi].
  - rewrite Hg in Hl; destruct (f a); [reflexivity|]; cbn in Hl; lia.
  - apply IH; [intros j Hj; apply H; right; exact Hj| |exact Hi|exact Hg].
    destruct (f a) eqn:Ef, (g a) eqn:Eg; cbn in Hl; try lia.
Qed.
Lemma dynamic_now (L : list (list Z)) k js : timed is_dynamic (dr (array L k)) 0 = Ok js ->
  List.length js = List.length (filter (fun i => negb (static L i) && at_k L i 0) (seq 0 (List.length L))).
Proof.
  rewrite (timed_dr is_dynamic (array L k) 0 ltac:(lia)); intros E; injection E as <-.
  rewrite not_nan_length, filter_map_length, filter_filter.
  rewrite (filter_ext_in _ (fun i => negb (static L i) && at_k L i 0)).
  - rewrite dr_order_array; unfold members_of; rewrite !filter_app, !app_length, !filter_filter.
    set (q := fun i => negb (static L i) && at_k L i 0).
    assert (C : forall l, List.length (filter (fun a => static L a && q a) l) + (List.length (filter (fun a => not_fb L a && q a) l) +
      (List.length (filter (fun a => mixed L a && q a) l) + List.length (filter (fun a => pure_forward L a && q a) l))) = List.length (filter q l)); [|apply C].
    induction l as [|a l IH]; cbn [filter]; [reflexivity|].
    unfold q, static, not_fb, mixed, pure_forward in *; destruct (at_k L a (-1)), (at_k L a 0), (at_k L a 1); cbn [negb andb orb List.length] in *; lia.
  - intros i Hi; assert (Hb : i < List.length L).
    { rewrite dr_order_array in Hi; unfold members_of in Hi; rewrite !in_app_iff, !filter_In, !in_seq in Hi; lia. }
    pose proof (isnan_at L k (-1) i Hb ltac:(lia)) as N1; pose proof (isnan_at L k 0 i Hb ltac:(lia)) as N2; pose proof (isnan_at L k 1 i Hb ltac:(lia)) as N3.
    unfold row_at, array in *; cbn [Z.eqb Pos.eqb row_m row_0 row_p] in *; unfold is_dynamic, static; rewrite N1, N2, N3.
    destruct (at_k L i (-1)), (at_k L i 0), (at_k L i 1); reflexivity.
Qed.

(** ** Shapes *)

Section Shapes.
  Variable F : Type.
  Variable O : rops F.
  Variable ltb : F -> F -> bool.
  Variable qr : nat -> nat -> mat F -> res (mat F * mat F).
  Variable rank : nat -> nat -> mat F -> nat.
  Variable ordqz : nat -> mat F -> mat F -> res (schur F).
  Variable inv : nat -> mat F -> res (mat F).
  Variable solve : nat -> nat -> mat F -> mat F -> res (mat F).

  Lemma rotated_shape x n c f A : rotated F O qr rank x (M2 n c f) = Ok A -> exists a, A = M2 n c a.
  Proof.
    unfold rotated; destruct (timed is_static x 0) as [[|v ns]|]; cbn [bind]; [intros E; injection E as <-; eauto| |discriminate].
    unfold take_cols; destruct (forallb _ _); [|discriminate]; cbn [bind].
    destruct (qr _ _ _) as [q|]; [|discriminate]; cbn [bind]; destruct (_ =? _); [|discriminate].
    unfold ndot, nmatmul; rewrite Nat.eqb_refl; intros E; injection E as <-; eauto.
  Qed.
  Lemma take_shape idx r c f a : take_cols F idx (M2 r c f) = Ok a -> exists h, a = M2 r (List.length idx) h.
  Proof. unfold take_cols; destruct (forallb _ _); [|discriminate]; intros E; injection E as <-; eauto. Qed.
  Lemma hstack_shape a b c : hstack F a b = Ok c -> exists r c1 f c2 g, a = M2 r c1 f /\ b = M2 r c2 g /\ exists h, c = M2 r (c1 + c2) h.
  Proof.
    unfold hstack; destruct a as [|? ?|r c1 f], b as [|? ?|r' c2 g]; try discriminate; destruct (Nat.eqb_spec r r') as [<-|]; [|discriminate].
    intros E; injection E as <-; do 5 eexists; split; [reflexivity|]; split; [reflexivity|]; eauto.
  Qed.
  Lemma vstack_shape a b c : vstack F a b = Ok c -> exists r1 k f r2 g, a = M2 r1 k f /\ b = M2 r2 k g /\ exists h, c = M2 (r1 + r2) k h.
  Proof.
    unfold vstack; destruct a as [|? ?|r1 c1 f], b as [|? ?|r2 c2 g]; try discriminate; destruct (Nat.eqb_spec c1 c2) as [<-|]; [|discriminate].
    intros E; injection E as <-; do 5 eexists; split; [reflexivity|]; split; [reflexivity|]; eauto.
  Qed.
  (** The rows that are kept. *)
  Definition kept (n d : nat) : nat := n - (if d =? 0 then 0 else n - d).
  Lemma structural_rows x n c f D E A : structural F O qr rank x (M2 n c f) = Ok (D, E, A) ->
    (exists a, A = M2 n c a) /\ exists cc d, D = M2 (kept n (Z.to_nat (n_dynamic x)) + n_mixed x) cc d.
  Proof.
    unfold structural; destruct (rotated F O qr rank x (M2 n c f)) as [A0|] eqn:EA; [|discriminate]; cbn [bind].
    destruct (rotated_shape x n c f A0 EA) as (a & ->); set (nd_ := Z.to_nat (n_dynamic x)).
    destruct (timed is_forward (dr x) 1) as [fp|]; [|discriminate]; cbn [bind last_rows]; fold (kept n nd_).
    destruct (take_cols F fp _) as [Ap|] eqn:E1; [|discriminate]; apply take_shape in E1 as (h1 & ->); cbn [bind].
    destruct (timed is_backward (dr x) (-1)) as [bm|]; [|discriminate]; cbn [bind].
    destruct (take_cols F bm _) as [Am|] eqn:E2; [|discriminate]; apply take_shape in E2 as (h2 & ->); cbn [bind].
    destruct (timed is_forward (dr x) 0) as [f0|]; [|discriminate]; cbn [bind].
    destruct (take_cols F f0 _) as [A0p|] eqn:E3; [|discriminate]; apply take_shape in E3 as (h3 & ->); cbn [bind].
    destruct (timed is_pure_backward (dr x) 0) as [b0|]; [|discriminate]; cbn [bind].
    destruct (take_cols F b0 _) as [A0m|] eqn:E4; [|discriminate]; apply take_shape in E4 as (h4 & ->); cbn [bind].
    set (M := if nsize F _ =? 0 then _ else _).
    destruct (Nat.ltb_spec 0 (n_mixed x)) as [Hm|Hm].
    - intros H; match type of H with bind ?e _ = _ => destruct e as [mI|] eqn:Em; [|discriminate H] end; cbn [bind] in H.
      destruct (block F (fst mI) _ _ _) as [D'|] eqn:Eb; [|discriminate H]; cbn [bind] in H.
      match type of H with bind ?e _ = _ => destruct e as [E'|]; [|discriminate H] end; cbn [bind] in H; injection H as <- <- <-.
      split; [eauto|]; unfold block in Eb.
      destruct (hstack F (fst mI) _) as [t|] eqn:Et; [|discriminate Eb]; cbn [bind] in Eb.
      destruct (hstack F (snd mI) _) as [u|] eqn:Eu; [|discriminate Eb]; cbn [bind] in Eb.
      apply hstack_shape in Et as (r & c1 & ? & c2 & ? & _ & X2 & ? & ->); injection X2 as <- <- <-.
      apply hstack_shape in Eu as (r & c1' & ? & c2' & ? & _ & X2 & ? & ->); unfold zeros in X2; injection X2 as <- <- _.
      apply vstack_shape in Eb as (? & ? & ? & ? & ? & X1 & X2 & ? & ->); injection X1 as <- <- <-; injection X2 as <- _ _; eauto.
    - destruct (hstack F M _) as [D'|] eqn:Ed; [|discriminate]; cbn [bind]; match goal with |- bind ?e _ = _ -> _ => destruct e as [E'|]; [|discriminate] end; cbn [bind].
      intros H; injection H as <- <- <-; split; [eauto|].
      apply hstack_shape in Ed as (r & c1 & ? & c2 & ? & _ & X2 & ? & ->); injection X2 as <- <- <-.
      replace (n_mixed x) with 0 by lia; rewrite Nat.add_0_r; eauto.
  Qed.

  (** What is solved has as many columns for the variables with a lag or lead as rows kept. *)
  Lemma solved_shape x n c f s r js : state_space F O ltb qr rank ordqz x (M2 n c f) = Ok s -> solve_first_order F O inv solve x s = Ok r ->
    timed is_dynamic (dr x) 0 = Ok js -> List.length js = kept n (Z.to_nat (n_dynamic x)).
  Proof.
    unfold state_space; destruct (structural F O qr rank x (M2 n c f)) as [[[D E] A]|] eqn:Es; [|discriminate]; cbn [bind fst snd].
    destruct (structural_rows x n c f D E A Es) as ((a & ->) & cc & d & ->); set (q0 := kept n (Z.to_nat (n_dynamic x))).
    unfold partitioned_qz; destruct E as [|? ?|r' c' e]; try discriminate.
    destruct (negb _) eqn:Eq; [discriminate|]; apply Bool.negb_false_iff in Eq; destruct (ordqz _ e d) as [w|]; [|discriminate]; cbn [bind].
    destruct (find_first _) as [kk|]; [|discriminate]; cbn [bind]; intros H; injection H as <-.
    set (R := q0 + n_mixed x); set (m := cut R kk); assert (Hm : m <= R) by apply cut_bound.
    unfold solve_first_order; cbn [jac]; unfold solve_nonstatic; cbn [Z11 Z21 Z22 T11 S11].
    unfold nsolve; rewrite !Nat.eqb_refl; cbn [negb]; destruct (solve _ _ _ _) as [p|]; [|discriminate]; cbn [bind ntrans ninv].
    rewrite !Nat.eqb_refl; destruct (inv m (q_T w)) as [it|]; [|discriminate]; cbn [bind ndot nmatmul]; rewrite !Nat.eqb_refl; cbn [bind].
    destruct (inv m _) as [iz|]; [|discriminate]; cbn [bind ndot nmatmul]; repeat (rewrite Nat.eqb_refl; cbn [bind ndot nmatmul fst snd nneg nmap]).
    set (gym := M2 m m _); set (gyp := M2 (R - m) m _).
    destruct (array_shingle F gym gyp (Z.of_nat (n_mixed x))) as [gyd|] eqn:Eg; [|cbn [bind]; intros H; discriminate H]; cbn [bind].
    unfold solve_static; cbn [first_rows].
    destruct (timed is_forward (dr x) 1) as [fp|]; [|discriminate]; cbn [bind]; destruct (take_cols F fp _) as [Ap|]; [|discriminate]; cbn [bind].
    destruct (timed is_backward (dr x) (-1)) as [bm|]; [|discriminate]; cbn [bind]; destruct (take_cols F bm _) as [Am|]; [|discriminate]; cbn [bind].
    destruct (timed is_static (dr x) 0) as [s0|]; [|discriminate]; cbn [bind]; destruct (take_cols F s0 _) as [A0s|]; [|discriminate]; cbn [bind].
    intros H Ej; rewrite Ej in H; cbn [bind] in H; destruct (take_cols F js _) as [A0d|] eqn:Ed; [|discriminate H]; apply take_shape in Ed as (hd & ->); cbn [bind] in H.
    rewrite Eg in H; cbn [bind] in H.
    destruct (ndot F O Ap gyp) as [a1|]; [|discriminate H]; cbn [bind] in H; destruct (ndot F O a1 gym) as [Agp|]; [|discriminate H]; cbn [bind] in H.
    unfold array_shingle, gym, gyp in Eg; rewrite Nat.eqb_refl in Eg; cbn [negb] in Eg.
    destruct (Z.ltb_spec (Z.of_nat m + Z.of_nat (R - m) - Z.of_nat (n_mixed x)) 0) as [Neg|_]; [discriminate Eg|].
    destruct (negb _); [discriminate Eg|]; destruct (negb _); [discriminate Eg|]; injection Eg as <-.
    cbn [ndot nmatmul] in H; destruct (Nat.eqb_spec (List.length js) (Z.to_nat (Z.of_nat m + Z.of_nat (R - m) - Z.of_nat (n_mixed x)))) as [El|]; [|discriminate H].
    rewrite El; unfold R in *; lia.
  Qed.

  Lemma solved_current (L : list (list Z)) k f c s r : in_range L ->
    state_space F O ltb qr rank ordqz (array L k) (M2 (List.length L) c f) = Ok s -> solve_first_order F O inv solve (array L k) s = Ok r ->
    forall i, i < List.length L -> at_k L i 0 = true.
  Proof.
    intros Hr Hs Hg.
    destruct (timed is_dynamic (dr (array L k)) 0) as [js|e] eqn:Ej.
    2: { unfold timed in Ej; cbn in Ej; discriminate Ej. }
    pose proof (solved_shape _ _ _ _ _ _ _ Hs Hg Ej) as Hl; rewrite (dynamic_now L k js Ej) in Hl.
    assert (Hn : n_endog (array L k) = List.length L) by (exact (array_length L k (-1))).
    pose proof (n_static_array L k) as Hst.
    assert (Dy : forall i, In i (seq 0 (List.length L)) -> negb (static L i) = true -> negb (static L i) && at_k L i 0 = true).
    { apply filter_full; [intros i _ H; apply andb_true_iff in H; tauto|].
      rewrite Hl; unfold kept, n_dynamic; rewrite Hn.
      assert (Sp : List.length (members_of L (static L)) + List.length (filter (fun i => negb (static L i)) (seq 0 (List.length L))) = List.length L).
      { unfold members_of; rewrite <- (seq_length (List.length L) 0) at 3; generalize (seq 0 (List.length L)); induction l as [|a l IH]; cbn; [reflexivity|].
        destruct (static L a); cbn; lia. }
      destruct (Nat.eqb_spec (Z.to_nat (Z.of_nat (List.length L) - Z.of_nat (n_static (array L k)))) 0); lia. }
    intros i Hi; destruct (static L i) eqn:Es.
    - unfold in_range in Hr; rewrite Forall_forall in Hr; destruct (Hr (nth i L []) (nth_In _ _ Hi)) as [Ne B].
      unfold static in Es; apply andb_true_iff in Es as [Es1 Es2]; unfold at_k in *; apply Bool.negb_true_iff in Es1, Es2.
      destruct (nth i L []) as [|z l]; [contradiction|]; rewrite Forall_forall in B; pose proof (B z (or_introl eq_refl)).
      cbn [existsb] in *; apply Bool.orb_false_iff in Es1 as [E1 _], Es2 as [E2 _]; apply Z.eqb_neq in E1, E2; replace z with 0%Z by lia; reflexivity.
    - specialize (Dy i ltac:(apply in_seq; lia)); rewrite Es in Dy; specialize (Dy eq_refl); apply andb_true_iff in Dy; tauto.
  Qed.
End Shapes.
