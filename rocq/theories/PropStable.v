(** The returned rule and the paths that do not explode: property C98. *)
From Verif Require Import Base Syntax Nd NdProofs NdInst Mat MatProofs SimSpec Indexing IndexingSpec IndexingProofs IndexingProofs2 SummaryProofs Moments
  OrderProofs FirstOrder FirstOrderSpec FirstOrderProofs FirstOrderProofs2 FirstOrderProofs3 FirstOrderProofs4 FirstOrderProofs5 FirstOrderCurrent FirstOrderExact FirstOrderExample
  SylvesterSpec SylvesterExample StableSpec StableProofs StableProofs2 StableProofs3 StableProofs4 PropFirst MomentsProofs.
From Coq Require Import ZArith QArith Qround Qcanon Permutation.
Local Open Scope string_scope.
Local Open Scope list_scope.
Local Open Scope nat_scope.

(** ** C98: the returned rule gives the only solution that does not explode *)

(** A rule can be followed from anywhere, and in one way. *)
Section Follow.
  Variable F : Type.
  Variable O : rops F.
  Variable g : rule F.
  Hypothesis P : proper g.
  Definition place (v : nat) : nat := nth v (Indexing.argsort (rorder g)) 0.
  Lemma placed v : v < rn g -> var_at g (place v) = v /\ place v < rn g.
  Proof using P. intros Hv; exact (argsort_nth _ _ _ (proj1 P) Hv). Qed.
  Lemma place_at i : i < rn g -> place (var_at g i) = i.
  Proof using P.
    intros Hi; pose proof (proj1 P) as Pm.
    assert (Ln : List.length (rorder g) = rn g) by (rewrite (Permutation_length Pm), seq_length; reflexivity).
    assert (Hv : var_at g i < rn g) by (assert (I : In (var_at g i) (seq 0 (rn g))) by (apply (Permutation_in _ Pm), nth_In; rewrite Ln; exact Hi); apply in_seq in I; lia).
    destruct (placed _ Hv) as [E G].
    apply (proj1 (NoDup_nth (rorder g) 0) (Permutation_NoDup (Permutation_sym Pm) (seq_NoDup _ _))); [rewrite Ln; exact G|rewrite Ln; exact Hi|exact E].
  Qed.
  Definition next (before u : nat -> F) (v : nat) : F :=
    radd O (Sum F O (rs g) (fun j => rmul O (ry g (place v) j) (before (state_at g j)))) (Sum F O (rk g) (fun l => rmul O (ru g (place v) l) (u l))).
  Lemma next_decides before u : decides F O g before u (next before u).
  Proof using P. intros i Hi; unfold next; rewrite (place_at i Hi); reflexivity. Qed.
  Fixpoint walk (lag : nat -> F) (u : nat -> nat -> F) (t : nat) : nat -> F :=
    match t with 0 => next lag (u 0) | S t' => next (walk lag u t') (u t) end.
  Lemma walk_shocked lag u : path_shocked F O g lag u (walk lag u).
  Proof using P. split; [apply next_decides|intros t; apply next_decides]. Qed.
  Lemma walk_follows lag u : exists y, path_follows F O g lag u y.
  Proof using P.
    exists (walk lag (fun t => match t with 0 => u | _ => fun _ => r0 O end)); split; [apply next_decides|intros t; apply next_decides].
  Qed.
  Lemma decides_one b b' u a a' : (forall v, v < rn g -> b v = b' v) -> decides F O g b u a -> decides F O g b' u a' -> forall v, v < rn g -> a v = a' v.
  Proof using P.
    intros E H H' v Hv; destruct (placed v Hv) as [Ev Gv]; rewrite <- Ev, (H _ Gv), (H' _ Gv); f_equal.
    apply (rsum_ext F O); intros j Hj; f_equal; apply E.
    destruct P as (Pm & Ls & _ & Hs & _); unfold state_at.
    assert (I : In (nth (nth j (rstate g) 0) (rorder g) 0) (seq 0 (rn g))); [|apply in_seq in I; lia].
    apply (Permutation_in _ Pm), nth_In; rewrite (Permutation_length Pm), seq_length; apply Hs, nth_In; lia.
  Qed.
  Lemma follows_one lag u y y' : path_follows F O g lag u y -> path_follows F O g lag u y' -> forall t v, v < rn g -> y t v = y' t v.
  Proof using P.
    intros [H0 H] [H0' H'] t; induction t as [|t IH]; [exact (decides_one _ _ _ _ _ (fun _ _ => eq_refl) H0 H0')|exact (decides_one _ _ _ _ _ IH (H t) (H' t))].
  Qed.
End Follow.

(** Full statement: whatever model is solved, and whatever the values before the first period
    and the shocks of the first period, the path of the returned rule is bounded and solves
    the linearised equations, and it is the only such path; shocks that stay bounded keep the
    paths of the rule bounded, and without shocks they return to the steady state.  Proved when the roots are separated: as many as there are
    variables with a lag lie inside the unit circle, and the others outside. *)
Theorem C98_partial :
  forall (F : Type) (O : rops F) (finv : F -> F) (le : F -> F -> Prop) (ltb : F -> F -> bool)
    (qr : nat -> nat -> mat F -> res (mat F * mat F)) (rank : nat -> nat -> mat F -> nat) (ordqz : nat -> mat F -> mat F -> res (schur F))
    (inv : nat -> mat F -> res (mat F)) (solve : nat -> nat -> mat F -> mat F -> res (mat F))
    (lls : list (string * list Z)) (k : nat) (X : indexes) (J : mat F) (s : state F) (gy gu : nd F),
  is_field O finv -> is_ordered O le -> (forall x y, ltb x y = false <-> le y x) -> archimedean F O le ->
  qr_routine F O qr -> schur_routine F O le ordqz -> finite_quotients F O ordqz -> inverse_routine F O inv -> linear_routine F O solve -> refuses_singular F O solve ->
  NoDup (map fst lls) -> in_range (map snd lls) -> index_manager lls k = Ok X ->
  let L := map snd lls in
  let n := List.length L in
  state_space F O ltb qr rank ordqz X (M2 n (List.length (timed_vars L) + k) J) = Ok s ->
  solve_first_order F O inv solve X s = Ok (gy, gu) ->
  separated F O le (eigen s) (List.length (members_of L (backward L))) ->
  exists g, about F L g /\ proper g /\ rk g = k /\
    gy = squeeze F (M2 (rn g) (rs g) (ry g)) /\ gu = squeeze F (M2 (rn g) (rk g) (ru g)) /\
    (forall lag u, exists y, path_follows F O g lag u y /\ path_solves F O L k J lag u y /\ bounded F O le n y /\
       forall y', path_solves F O L k J lag u y' -> bounded F O le n y' -> forall t v, v < n -> y' t v = y t v) /\
    (forall lag u y, path_follows F O g lag u y <-> path_solves F O L k J lag u y /\ bounded F O le n y) /\
    (forall lag u y, bounded F O le k u -> path_shocked F O g lag u y -> bounded F O le n y) /\
    (forall y, (forall t, decides F O g (y t) (fun _ => r0 O) (y (S t))) -> vanishes F O le n y).
Proof.
  intros F O finv le ltb qr rank ordqz inv solve lls k X J s gy gu FT OR Hl AR Hqr Hqz Hfin Hinv Hsolve Hsing Hn Hr HX L n Hs Hg Hsep.
  rewrite (index_manager_array lls k Hn Hr) in HX; injection HX as <-; fold L in Hs, Hg.
  pose proof (solved_current F O ltb qr rank ordqz inv solve L k J _ s (gy, gu) Hr Hs Hg) as H0.
  destruct (solved_inv F O finv FT le ltb qr rank ordqz inv solve Hqr Hqz L k H0 J s (gy, gu) Hs Hg) as (B & _); rewrite (nb_is L k H0) in B, Hsep.
  destruct (first_order_stable F O finv FT le OR ltb Hl qr rank ordqz inv solve Hqr Hqz Hinv Hsolve Hsing Hfin AR L k H0 B J s gy gu Hs Hg Hsep)
    as (g & A & P & K & E1 & E2 & G1 & G2 & G3 & _).
  exists g; repeat (split; [assumption|]); split; [|split; [exact G1|split; [exact G2|exact G3]]].
  intros lag u; destruct (walk_follows F O g P lag u) as [y Hy]; exists y; split; [exact Hy|].
  destruct (proj1 (G1 lag u y) Hy) as [S1 S2]; split; [exact S1|]; split; [exact S2|].
  intros y' S1' S2' t v Hv; apply (follows_one F O g P lag u); [apply G1; split; assumption|exact Hy|].
  rewrite (proj1 A); exact Hv.
Qed.
Print Assumptions C98_partial.

(** The same when the roots are real, not negative and not on the unit circle, and one is
    outside: then a rule is returned only if the roots are separated. *)
Theorem C98_roots_partial :
  forall (F : Type) (O : rops F) (finv : F -> F) (le : F -> F -> Prop) (ltb : F -> F -> bool)
    (qr : nat -> nat -> mat F -> res (mat F * mat F)) (rank : nat -> nat -> mat F -> nat) (ordqz : nat -> mat F -> mat F -> res (schur F))
    (inv : nat -> mat F -> res (mat F)) (solve : nat -> nat -> mat F -> mat F -> res (mat F))
    (lls : list (string * list Z)) (k : nat) (X : indexes) (J : mat F) (s : state F) (gy gu : nd F),
  is_field O finv -> is_ordered O le -> (forall x y, ltb x y = false <-> le y x) -> archimedean F O le ->
  qr_routine F O qr -> schur_routine F O le ordqz -> finite_quotients F O ordqz -> inverse_routine F O inv -> linear_routine F O solve -> refuses_singular F O solve ->
  NoDup (map fst lls) -> in_range (map snd lls) -> index_manager lls k = Ok X ->
  let L := map snd lls in
  let n := List.length L in
  state_space F O ltb qr rank ordqz X (M2 n (List.length (timed_vars L) + k) J) = Ok s ->
  solve_first_order F O inv solve X s = Ok (gy, gu) ->
  (forall e, In e (eigen s) -> not_negative F O le e /\ (inside_circle F O le e \/ outside_circle F O le e)) ->
  (exists e, In e (eigen s) /\ outside_circle F O le e) ->
  exists g, about F L g /\ proper g /\ rk g = k /\
    gy = squeeze F (M2 (rn g) (rs g) (ry g)) /\ gu = squeeze F (M2 (rn g) (rk g) (ru g)) /\
    (forall lag u y, path_follows F O g lag u y <-> path_solves F O L k J lag u y /\ bounded F O le n y) /\
    (forall lag u y, bounded F O le k u -> path_shocked F O g lag u y -> bounded F O le n y).
Proof.
  intros F O finv le ltb qr rank ordqz inv solve lls k X J s gy gu FT OR Hl AR Hqr Hqz Hfin Hinv Hsolve Hsing Hn Hr HX L n Hs Hg Hall He.
  destruct (C73_partial F O finv le ltb qr rank ordqz inv solve lls k X J s (gy, gu) FT OR Hl Hqr Hqz Hn Hr HX Hs Hg Hall He) as [_ Hsep].
  destruct (C98_partial F O finv le ltb qr rank ordqz inv solve lls k X J s gy gu FT OR Hl AR Hqr Hqz Hfin Hinv Hsolve Hsing Hn Hr HX Hs Hg Hsep)
    as (g & A & P & K & E1 & E2 & _ & G1 & G2 & _).
  exists g; repeat (split; [assumption|]); assumption.
Qed.
Print Assumptions C98_roots_partial.

(** The rational numbers, and routines for the cases below. *)
Lemma Q_archimedean : archimedean Qc QO Qcle.
Proof.
  intros x; assert (E : forall m, (this (number QO m) == inject_Z (Z.of_nat m))%Q).
  { induction m as [|m IH]; [reflexivity|]; cbn [number].
    change (radd QO (number QO m) (r1 QO)) with (number QO m + 1)%Qc; unfold Qcplus.
    etransitivity; [apply Qred_correct|]; rewrite IH; change (this 1%Qc) with (inject_Z 1); rewrite <- inject_Z_plus; rewrite Nat2Z.inj_succ; reflexivity. }
  exists (Z.to_nat (Qceiling (this x))); unfold Qcle; rewrite E.
  apply (Qle_trans _ (inject_Z (Qceiling (this x)))); [apply Qle_ceiling|].
  rewrite <- Zle_Qle; lia.
Qed.
Definition has_quotients (t : factors) : bool :=
  forallb (fun j => match nth j (t_eig t) Nan with Fin _ _ => negb (same (mx (t_T t) j j) 0%Qc) | _ => true end) (seq 0 (List.length (t_eig t))).
Lemma quotients_ok c : forallb has_quotients c = true -> finite_quotients Qc QO (qz_with c).
Proof.
  intros H n A B q Hq j re im Hj E; unfold qz_with in Hq; destruct (find _ c) as [t|] eqn:Ef; [|discriminate Hq]; injection Hq as <-.
  apply find_some in Ef as [It _]; rewrite forallb_forall in H; specialize (H t It); unfold has_quotients in H; rewrite forallb_forall in H.
  cbn [q_eig q_T as_schur] in *.
  destruct (Nat.lt_ge_cases j (List.length (t_eig t))) as [G|G]; [|rewrite nth_overflow in E by exact G; discriminate E].
  specialize (H j ltac:(apply in_seq; lia)); rewrite E in H; apply same_neq, negb_true_iff, H.
Qed.

Example C98_nonvacuous :
  is_field QO Qcinv /\ is_ordered QO Qcle /\ (forall x y, qlt x y = false <-> Qcle y x) /\ archimedean Qc QO Qcle /\
  qr_routine Qc QO xyz_qr /\ schur_routine Qc QO Qcle xyz_qz /\ finite_quotients Qc QO xyz_qz /\ inverse_routine Qc QO xyz_inv /\
  linear_routine Qc QO qsolve /\ refuses_singular Qc QO qsolve /\
  NoDup (map fst xyz) /\ in_range (map snd xyz) /\
  exists X s gy gu, index_manager xyz 1 = Ok X /\ List.length (timed_vars (map snd xyz)) + 1 = 7 /\
    state_space Qc QO qlt xyz_qr rank_all xyz_qz X (M2 3 7 (mx xyz_J)) = Ok s /\
    solve_first_order Qc QO xyz_inv qsolve X s = Ok (gy, gu) /\
    List.length (members_of (map snd xyz) (backward (map snd xyz))) = 2 /\ separated Qc QO Qcle (eigen s) 2 /\
    (forall e, In e (eigen s) -> not_negative Qc QO Qcle e /\ (inside_circle Qc QO Qcle e \/ outside_circle Qc QO Qcle e)) /\
    (exists e, In e (eigen s) /\ outside_circle Qc QO Qcle e) /\
    shown gy [[q 1 2; q 3 4]; [q 1 2; z0]; [z0; q 3 4]] = true /\ shown gu [[q 1 2]; [z1]; [q (-1) 2]] = true.
Proof.
  split; [exact Q_field|]; split; [exact Q_ordered|]; split; [exact qlt_le|]; split; [exact Q_archimedean|].
  split; [apply qr_with_ok|]; split; [apply qz_with_ok|]; split; [apply quotients_ok; vm_compute; reflexivity|]; split; [apply inv_with_ok|].
  split; [exact qsolve_ok|]; split; [exact qsolve_refuses|].
  split; [repeat constructor; cbn [In map fst]; intuition discriminate|]; split; [repeat constructor; try discriminate; try lia|].
  assert (E : match (do X <- index_manager xyz 1; solution QO qlt xyz_qr rank_all xyz_qz xyz_inv qsolve X (M2 3 7 (mx xyz_J))) with
    Ok (s, (gy, gu)) => match eigen s with [Fin a b; Fin c d; Fin e f] => same a (q 1 2) && same b z0 && same c (q 3 4) && same d z0 && same e (q 2 1) && same f z0 | _ => false end &&
      (shown gy [[q 1 2; q 3 4]; [q 1 2; z0]; [z0; q 3 4]] && shown gu [[q 1 2]; [z1]; [q (-1) 2]])
    | Err _ => false end = true) by (vm_compute; reflexivity).
  destruct (index_manager xyz 1) as [X|]; [|discriminate E]; cbn [bind] in E; unfold solution in E.
  destruct (state_space _ _ _ _ _ _ X _) as [s|] eqn:Es; [|discriminate E]; cbn [bind] in E.
  destruct (solve_first_order _ _ _ _ X s) as [[gy gu]|] eqn:Eg; [|discriminate E]; cbn [bind] in E.
  apply andb_true_iff in E as [E E']; apply andb_true_iff in E' as [E2 E3].
  destruct (eigen s) as [|[a b| |] [|[c d| |] [|[e f| |] [|? ?]]]] eqn:Ee; try discriminate E.
  repeat (apply andb_true_iff in E as [E ?]); repeat match goal with G : same _ _ = true |- _ => apply same_eq in G end; subst.
  exists X, s, gy, gu; split; [reflexivity|]; split; [reflexivity|]; split; [exact Es|]; split; [exact Eg|]; split; [reflexivity|]; rewrite Ee.
  split; [|split; [|split; [|split; assumption]]].
  - split; [cbn; lia|]; split.
    + intros [|[|i]] Hi; try (cbn in Hi; lia); cbn [nth]; apply is_inside_ok; vm_compute; reflexivity.
    + intros [|[|[|i]]] Hi; try (cbn in Hi; lia); cbn; apply qlt_true; vm_compute; reflexivity.
  - intros x [<-|[<-|[<-|[]]]]; (split; [split; [reflexivity|apply qlt_le; vm_compute; reflexivity]|]).
    + left; apply is_inside_ok; vm_compute; reflexivity.
    + left; apply is_inside_ok; vm_compute; reflexivity.
    + right; cbn; apply qlt_true; vm_compute; reflexivity.
  - exists (Fin (q 2 1) z0); split; [cbn; tauto|]; cbn; apply qlt_true; vm_compute; reflexivity.
Qed.

(** The full statement fails: x = -2 x(-1) + e, y(+1) = 3 y + e is solved, and the rule that
    is returned explodes. *)
Theorem C98_refuted :
  ~ (forall (qr : nat -> nat -> mat Qc -> res (mat Qc * mat Qc)) (rank : nat -> nat -> mat Qc -> nat) (ordqz : nat -> mat Qc -> mat Qc -> res (schur Qc))
       (inv : nat -> mat Qc -> res (mat Qc)) (solve : nat -> nat -> mat Qc -> mat Qc -> res (mat Qc))
       (lls : list (string * list Z)) (k : nat) (X : indexes) (J : mat Qc) (s : state Qc) (gy gu : nd Qc),
     qr_routine Qc QO qr -> schur_routine Qc QO Qcle ordqz -> finite_quotients Qc QO ordqz -> inverse_routine Qc QO inv ->
     linear_routine Qc QO solve -> refuses_singular Qc QO solve ->
     NoDup (map fst lls) -> in_range (map snd lls) -> index_manager lls k = Ok X ->
     let L := map snd lls in
     state_space Qc QO qlt qr rank ordqz X (M2 (List.length L) (List.length (timed_vars L) + k) J) = Ok s ->
     solve_first_order Qc QO inv solve X s = Ok (gy, gu) ->
     forall g, about Qc L g -> proper g -> rk g = k -> gy = squeeze Qc (M2 (rn g) (rs g) (ry g)) -> gu = squeeze Qc (M2 (rn g) (rk g) (ru g)) ->
     forall lag u y, path_follows Qc QO g lag u y -> bounded Qc QO Qcle (List.length L) y).
Proof.
  intros H.
  assert (E : match (do X <- index_manager bad 1; solution QO qlt (qr_with []) rank_all bad_qz bad_inv qsolve X (M2 2 5 (mx bad_J))) with
    Ok (s, (gy, gu)) => shown gy [[q (-2) 1]; [z0]] | Err _ => false end = true) by (vm_compute; reflexivity).
  destruct (index_manager bad 1) as [X|] eqn:EX; [|discriminate E]; cbn [bind] in E; unfold solution in E.
  destruct (state_space _ _ _ _ _ _ X _) as [s|] eqn:Es; [|discriminate E]; cbn [bind] in E.
  destruct (solve_first_order _ _ _ _ X s) as [[gy gu]|] eqn:Eg; [|discriminate E]; cbn [bind] in E.
  assert (Hn : NoDup (map fst bad)) by (repeat constructor; cbn [In map fst]; intuition discriminate).
  assert (Hr : in_range (map snd bad)) by (repeat constructor; try discriminate; try lia).
  assert (Hfin : finite_quotients Qc QO bad_qz) by (apply quotients_ok; vm_compute; reflexivity).
  destruct (returned_rule Qc QO Qcinv Qcle qlt (qr_with []) rank_all bad_qz bad_inv qsolve bad 1 X (mx bad_J) s gy gu
    Q_field Q_ordered qlt_le (qr_with_ok _) (qz_with_ok _) (inv_with_ok _) qsolve_ok Hn Hr EX Es Eg) as (g & A & P & K & E1 & E2 & _).
  destruct (walk_follows Qc QO g P (fun _ => 1%Qc) (fun _ => 0%Qc)) as [y Hy].
  pose proof (H _ _ _ _ _ _ _ _ _ _ _ _ (qr_with_ok _) (qz_with_ok _) Hfin (inv_with_ok _) qsolve_ok qsolve_refuses Hn Hr EX Es Eg g A P K E1 E2 _ _ _ Hy) as Bd; clear H.
  destruct A as (An & Ao & As & Ar); cbn in An, Ao, As, Ar.
  rewrite An, Ar in E1; cbn in E1; subst gy; cbn [shown] in E; apply andb_true_iff in E as [_ E].
  pose proof (agree_eq _ _ _ _ E 0 0 ltac:(cbn; lia) ltac:(lia)) as G; cbv beta in G; cbn in G.
  assert (Ey : forall b a, decides Qc QO g b (fun _ => 0%Qc) a -> a 0 = (q (-2) 1 * b 0%nat)%Qc).
  { intros b a D; specialize (D 0 ltac:(lia)); unfold var_at, state_at in D; rewrite Ao, As, Ar, K in D; cbn in D; rewrite G in D.
    rewrite D; ring. }
  destruct Hy as [D0 D].
  pose proof (each_bnd Qc QO Qcinv Q_field Qcle Q_ordered 2 y 0 Bd ltac:(lia)) as [C HC].
  pose proof (growth Qc QO Qcinv Q_field Qcle Q_ordered (eq_dec0 Qc QO Qcle Q_ordered qlt qlt_le) Q_archimedean (fun t => y t 0%nat * y t 0%nat)%Qc (q 4 1) C) as Z.
  assert (Y0 : y 0 0 = q (-2) 1) by (rewrite (Ey _ _ D0); ring).
  assert (Z0 : (y 0%nat 0%nat * y 0%nat 0%nat)%Qc = 0%Qc).
  { refine (Z _ _ HC _ 0).
    - intros t; cbv beta; rewrite (Ey _ _ (D t)); change (rmul QO) with Qcmult; replace (q 4 1) with (q (-2) 1 * q (-2) 1)%Qc by (apply Qc_is_canon; reflexivity); ring.
    - intros t; exact (sq_nonneg Qc QO Qcinv Q_field Qcle Q_ordered (y t 0)).
    - apply qlt_true; vm_compute; reflexivity. }
  rewrite Y0 in Z0; vm_compute in Z0; discriminate Z0.
Qed.
Print Assumptions C98_refuted.
