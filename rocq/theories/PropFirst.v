(** The first-order solution: properties C40, C41, C72 and C73. *)
From Verif Require Import Base Syntax Nd NdProofs NdInst Mat MatProofs SimSpec Indexing IndexingSpec IndexingProofs IndexingProofs2 SummaryProofs Moments
  OrderProofs FirstOrder FirstOrderSpec FirstOrderProofs FirstOrderProofs2 FirstOrderProofs3 FirstOrderProofs4 FirstOrderProofs5 FirstOrderCurrent FirstOrderExact FirstOrderExample.
From Coq Require Import ZArith QArith Qcanon Permutation.
Local Open Scope string_scope.
Local Open Scope list_scope.
Local Open Scope nat_scope.

(** ** C40: the first-order solution solves the linearised model *)

(** The rule that is returned; every variable appears in the current period. *)
Lemma returned_rule :
  forall (F : Type) (O : rops F) (finv : F -> F) (le : F -> F -> Prop) (ltb : F -> F -> bool)
    (qr : nat -> nat -> mat F -> res (mat F * mat F)) (rank : nat -> nat -> mat F -> nat) (ordqz : nat -> mat F -> mat F -> res (schur F))
    (inv : nat -> mat F -> res (mat F)) (solve : nat -> nat -> mat F -> mat F -> res (mat F))
    (lls : list (string * list Z)) (k : nat) (X : indexes) (J : mat F) (s : state F) (gy gu : nd F),
  is_field O finv -> is_ordered O le -> (forall x y, ltb x y = false <-> le y x) ->
  qr_routine F O qr -> schur_routine F O le ordqz -> inverse_routine F O inv -> linear_routine F O solve ->
  NoDup (map fst lls) -> in_range (map snd lls) -> index_manager lls k = Ok X ->
  let L := map snd lls in
  state_space F O ltb qr rank ordqz X (M2 (List.length L) (List.length (timed_vars L) + k) J) = Ok s ->
  solve_first_order F O inv solve X s = Ok (gy, gu) ->
  exists g, about F L g /\ proper g /\ rk g = k /\
    gy = squeeze F (M2 (rn g) (rs g) (ry g)) /\ gu = squeeze F (M2 (rn g) (rk g) (ru g)) /\
    ((exists e, In e (eigen s) /\ beyond_one F O le e) \/ not_complex F O (last (eigen s) Nan) -> solves_model F O L J g) /\
    forall i, i < List.length lls -> at_k L i 0 = true.
Proof.
  intros F O finv le ltb qr rank ordqz inv solve lls k X J s gy gu FT OR Hl Hqr Hqz Hinv Hsolve Hn Hr HX L Hs Hg.
  rewrite (index_manager_array lls k Hn Hr) in HX; injection HX as <-; fold L in Hs, Hg.
  pose proof (solved_current F O ltb qr rank ordqz inv solve L k J _ s (gy, gu) Hr Hs Hg) as H0.
  destruct (solved_inv F O finv FT le ltb qr rank ordqz inv solve Hqr Hqz L k H0 J s (gy, gu) Hs Hg) as (B & _); rewrite (nb_is L k H0) in B.
  destruct (first_order_solves F O finv FT le OR ltb Hl qr rank ordqz inv solve Hqr Hqz Hinv Hsolve L k H0 B J s gy gu Hs Hg) as (g & A & P & K & E1 & E2 & G).
  exists g; repeat (split; [assumption|]); rewrite <- (map_length snd lls); exact H0.
Qed.

(** Full statement: for every model and every outcome of the numerical routines that keeps
    their promises, the decision rule that is returned makes every linearised equation hold
    whatever the lagged values and the shocks.  Proved unless the last root is complex and no
    root is beyond one: then a pair of complex roots is cut apart. *)
Theorem C40_partial :
  forall (F : Type) (O : rops F) (finv : F -> F) (le : F -> F -> Prop) (ltb : F -> F -> bool)
    (qr : nat -> nat -> mat F -> res (mat F * mat F)) (rank : nat -> nat -> mat F -> nat) (ordqz : nat -> mat F -> mat F -> res (schur F))
    (inv : nat -> mat F -> res (mat F)) (solve : nat -> nat -> mat F -> mat F -> res (mat F))
    (lls : list (string * list Z)) (k : nat) (X : indexes) (J : mat F) (s : state F) (gy gu : nd F),
  is_field O finv -> is_ordered O le -> (forall x y, ltb x y = false <-> le y x) ->
  qr_routine F O qr -> schur_routine F O le ordqz -> inverse_routine F O inv -> linear_routine F O solve ->
  NoDup (map fst lls) -> in_range (map snd lls) -> index_manager lls k = Ok X ->
  let L := map snd lls in
  state_space F O ltb qr rank ordqz X (M2 (List.length L) (List.length (timed_vars L) + k) J) = Ok s ->
  (exists e, In e (eigen s) /\ beyond_one F O le e) \/ not_complex F O (last (eigen s) Nan) ->
  solve_first_order F O inv solve X s = Ok (gy, gu) ->
  exists g, about F L g /\ proper g /\ rk g = k /\
    gy = squeeze F (M2 (rn g) (rs g) (ry g)) /\ gu = squeeze F (M2 (rn g) (rk g) (ru g)) /\ solves_model F O L J g.
Proof.
  intros F O finv le ltb qr rank ordqz inv solve lls k X J s gy gu FT OR Hl Hqr Hqz Hinv Hsolve Hn Hr HX L Hs Hx Hg.
  destruct (returned_rule F O finv le ltb qr rank ordqz inv solve lls k X J s gy gu FT OR Hl Hqr Hqz Hinv Hsolve Hn Hr HX Hs Hg) as (g & A & P & K & E1 & E2 & G & _).
  exists g; repeat (split; [assumption|]); exact (G Hx).
Qed.
Print Assumptions C40_partial.

(** x = x(-1)/2 + e, y(+1) - 11/4 y + 3/2 y(-1) = e, z = x + y: a predetermined variable,
    one with a lag and a lead, and a static one; the roots are 1/2, 3/4 and 2. *)
Definition q (n : Z) (d : positive) : Qc := Q2Qc (n # d).
Definition z0 : Qc := Q2Qc 0.
Definition z1 : Qc := Q2Qc 1.
Definition xyz : list (string * list Z) := [("x", [-1; 0]); ("y", [-1; 0; 1]); ("z", [0])]%Z.
Definition xyz_J : table :=
  [[q (-1) 2; z0; z1; z0; z0; z0; q (-1) 1]; [z0; q 3 2; z0; q (-11) 4; z0; z1; q (-1) 1]; [z0; z0; q (-1) 1; q (-1) 1; z1; z0; z0]].
Definition xyz_qr := qr_with [([[z0; z0; z1]; [z0; z1; z0]; [z1; z0; z0]], [[z1]; [z0]; [z0]])].
Definition xyz_qz := qz_with [Factors
  [[q 1 2; z0; z0]; [z0; q 3 4; q 5 2]; [z0; z0; q 2 1]] [[z1; z0; z0]; [z0; z1; z0]; [z0; z0; z1]]
  [Fin (q 1 2) z0; Fin (q 3 4) z0; Fin (q 2 1) z0]
  [[z0; q 3 5; q 4 5]; [z1; z0; z0]; [z0; q 4 5; q (-3) 5]] [[z1; z0; z0]; [z0; q 4 5; q (-3) 5]; [z0; q 3 5; q 4 5]]].
Definition xyz_inv := inv_with [[[z1]]; [[z1; z0]; [z0; z1]]; [[z1; z0]; [z0; q 5 4]]].
Definition xyz_solve := solve_with [[[z0; q (-3) 4]]; [[q (-1) 2]; [q (-1) 1]; [q 1 2]]].
Definition solution {F} (O : rops F) ltb qr rank ordqz inv solve (X : indexes) (J : nd F) : res (state F * (nd F * nd F)) :=
  do s <- state_space F O ltb qr rank ordqz X J; do g <- solve_first_order F O inv solve X s; Ok (s, g).
Definition shown (a : nd Qc) (t : list (list Qc)) : bool :=
  match a with
  | M2 r c f => (r =? List.length t) && forallb (fun l => c =? List.length l) t && agree r c f (mx t)
  | V1 m f => (m =? List.length t) && agree m 1 (fun i _ => f i) (mx t)
  | _ => false
  end.
Definition xyz_solution := do X <- index_manager xyz 1; solution QO qlt xyz_qr rank_all xyz_qz xyz_inv xyz_solve X (M2 3 7 (mx xyz_J)).
Example C40_nonvacuous :
  is_field QO Qcinv /\ is_ordered QO Qcle /\ (forall x y, qlt x y = false <-> Qcle y x) /\
  qr_routine Qc QO xyz_qr /\ schur_routine Qc QO Qcle xyz_qz /\ inverse_routine Qc QO xyz_inv /\ linear_routine Qc QO xyz_solve /\
  NoDup (map fst xyz) /\ in_range (map snd xyz) /\ (forall i, i < List.length xyz -> at_k (map snd xyz) i 0 = true) /\
  exists X s gy gu, index_manager xyz 1 = Ok X /\ List.length (timed_vars (map snd xyz)) + 1 = 7 /\
    state_space Qc QO qlt xyz_qr rank_all xyz_qz X (M2 3 7 (mx xyz_J)) = Ok s /\
    (exists e, In e (eigen s) /\ beyond_one Qc QO Qcle e) /\
    solve_first_order Qc QO xyz_inv xyz_solve X s = Ok (gy, gu) /\
    shown gy [[q 1 2; q 3 4]; [q 1 2; z0]; [z0; q 3 4]] = true /\ shown gu [[q 1 2]; [z1]; [q (-1) 2]] = true.
Proof.
  split; [exact Q_field|]; split; [exact Q_ordered|]; split; [exact qlt_le|].
  split; [apply qr_with_ok|]; split; [apply qz_with_ok|]; split; [apply inv_with_ok|]; split; [apply solve_with_ok|].
  split; [repeat constructor; cbn [In map fst]; intuition discriminate|]; split; [repeat constructor; try discriminate; try lia|].
  split; [intros [|[|[|i]]] Hi; try reflexivity; cbn in Hi; lia|].
  assert (E : match xyz_solution with
    Ok (s, (gy, gu)) => existsb (above Qc QO qlt) (eigen s) && shown gy [[q 1 2; q 3 4]; [q 1 2; z0]; [z0; q 3 4]] && shown gu [[q 1 2]; [z1]; [q (-1) 2]]
    | Err _ => false end = true) by (vm_compute; reflexivity).
  unfold xyz_solution in E; destruct (index_manager xyz 1) as [X|]; [|discriminate E]; cbn [bind] in E; unfold solution in E.
  destruct (state_space _ _ _ _ _ _ X _) as [s|] eqn:Es; [|discriminate E]; cbn [bind] in E.
  destruct (solve_first_order _ _ _ _ X s) as [[gy gu]|] eqn:Eg; [|discriminate E]; cbn [bind] in E.
  apply andb_true_iff in E as [E E3]; apply andb_true_iff in E as [E1 E2]; apply existsb_exists in E1 as (e & Ie & He).
  exists X, s, gy, gu; split; [reflexivity|]; split; [reflexivity|]; split; [exact Es|].
  split; [exists e; split; [exact Ie|apply (above_iff Qc QO Qcle Q_ordered qlt qlt_le), He]|]; split; [exact Eg|]; split; assumption.
Qed.

(** The full statement fails: y(+1) - y + y(-1)/2 = e has the roots (1 + i)/2 and (1 - i)/2.
    No decision rule solves it, and one is returned. *)
Definition osc : list (string * list Z) := [("y", [-1; 0; 1])]%Z.
Definition osc_J : table := [[q 1 2; q (-1) 1; z1; q (-1) 1]].
Definition osc_qr := qr_with [].
Definition osc_qz := qz_with [Factors
  [[z0; z1]; [q (-1) 2; z1]] [[z1; z0]; [z0; z1]] [Fin (q 1 2) (q 1 2); Fin (q 1 2) (q (-1) 2)] [[z0; z1]; [z1; z0]] [[z1; z0]; [z0; z1]]].
Definition osc_inv := inv_with [[]; [[z1]]].
Definition osc_solve := solve_with [[[z0]]; [[z1]]].
Lemma osc_no_rule g : about Qc (map snd osc) g -> rk g = 1 -> ~ solves_model Qc QO (map snd osc) (mx osc_J) g.
Proof.
  intros (Rn & Ro & Rs & Rc) Rk H; change (rn g = 1) in Rn; change (rorder g = [0]) in Ro; change (rstate g = [0]) in Rs; change (rs g = 1) in Rc.
  set (a := ry g 0 0).
  assert (D : forall b z c u : Qc, c = (a * b + ru g 0%nat 0%nat * u)%Qc -> z = (0 + a * c)%Qc -> decides Qc QO g (fun _ => b) (fun _ => u) (fun _ => c) /\ decides Qc QO g (fun _ => c) (fun _ => r0 QO) (fun _ => z)).
  { intros b z c u -> ->; split; intros i Hi; rewrite Rn in Hi; replace i with 0 by lia; rewrite Rc, Rk; cbn [Sum]; cbn [radd rmul r0 QO]; fold a; ring. }
  destruct (D 1%Qc (0 + a * (a * 1 + ru g 0%nat 0%nat * 0))%Qc (a * 1 + ru g 0%nat 0%nat * 0)%Qc 0%Qc eq_refl eq_refl) as [D1 D2].
  pose proof (H _ _ _ _ D1 D2 0 ltac:(cbn; lia)) as E; unfold linear_equation in E; rewrite Rk in E.
  change (timed_vars (map snd osc)) with [(0%nat, (-1)%Z); (0%nat, 0%Z); (0%nat, 1%Z)] in E; cbn [List.length Sum nth Nat.add] in E.
  unfold dated in E; cbn [fst snd Z.eqb Pos.eqb] in E; unfold mx, osc_J in E; cbn [nth radd rmul r0 QO] in E.
  assert (G : ((a + a - 1) * (a + a - 1) = q (-1) 1)%Qc).
  { transitivity (q 4 1 * (0 + q 1 2 * 1 + q (-1) 1 * (a * 1 + ru g 0%nat 0%nat * 0) + z1 * (0 + a * (a * 1 + ru g 0%nat 0%nat * 0)) + (0 + q (-1) 1 * 0)) + q (-1) 1)%Qc.
    - change (q 4 1) with (1 + 1 + (1 + 1))%Qc; change (q (-1) 1) with (- (1))%Qc; change z1 with 1%Qc.
      transitivity ((1 + 1) * ((1 + 1) * q 1 2) + (- (1 + 1 + (1 + 1)) * a + (1 + 1 + (1 + 1)) * a * a) - 1)%Qc; [|ring].
      replace ((1 + 1) * q 1 2)%Qc with 1%Qc by (apply Qc_is_canon; reflexivity); ring.
    - unfold z1, z0 in E |- *; change (Q2Qc 0) with 0%Qc in E; change (Q2Qc 1) with 1%Qc in E; rewrite E; ring. }
  pose proof (sq_nonneg Qc QO Qcinv Q_field Qcle Q_ordered (a + a - 1)%Qc) as P; cbn [rmul r0 QO] in P; rewrite G in P.
  vm_compute in P; apply P; reflexivity.
Qed.
Theorem C40_refuted :
  ~ (forall (F : Type) (O : rops F) (finv : F -> F) (le : F -> F -> Prop) (ltb : F -> F -> bool)
       (qr : nat -> nat -> mat F -> res (mat F * mat F)) (rank : nat -> nat -> mat F -> nat) (ordqz : nat -> mat F -> mat F -> res (schur F))
       (inv : nat -> mat F -> res (mat F)) (solve : nat -> nat -> mat F -> mat F -> res (mat F))
       (lls : list (string * list Z)) (k : nat) (X : indexes) (J : mat F) (s : state F) (gy gu : nd F),
     is_field O finv -> is_ordered O le -> (forall x y, ltb x y = false <-> le y x) ->
     qr_routine F O qr -> schur_routine F O le ordqz -> inverse_routine F O inv -> linear_routine F O solve ->
     NoDup (map fst lls) -> in_range (map snd lls) -> (forall i, i < List.length lls -> at_k (map snd lls) i 0 = true) ->
     index_manager lls k = Ok X ->
     let L := map snd lls in
     state_space F O ltb qr rank ordqz X (M2 (List.length L) (List.length (timed_vars L) + k) J) = Ok s ->
     solve_first_order F O inv solve X s = Ok (gy, gu) ->
     exists g, about F L g /\ rk g = k /\ solves_model F O L J g).
Proof.
  intros H.
  assert (E : match (do X <- index_manager osc 1; solution QO qlt osc_qr rank_all osc_qz osc_inv osc_solve X (M2 1 4 (mx osc_J))) with
    Ok _ => true | Err _ => false end = true) by (vm_compute; reflexivity).
  destruct (index_manager osc 1) as [X|] eqn:EX; [|discriminate E]; cbn [bind] in E; unfold solution in E.
  destruct (state_space _ _ _ _ _ _ X _) as [s|] eqn:Es; [|discriminate E]; cbn [bind] in E.
  destruct (solve_first_order _ _ _ _ X s) as [[gy gu]|] eqn:Eg; [|discriminate E].
  destruct (H Qc QO Qcinv Qcle qlt osc_qr rank_all osc_qz osc_inv osc_solve osc 1 X (mx osc_J) s gy gu) as (g & A & Rk & S); try assumption.
  - exact Q_field.
  - exact Q_ordered.
  - exact qlt_le.
  - apply qr_with_ok.
  - apply qz_with_ok.
  - apply inv_with_ok.
  - apply solve_with_ok.
  - repeat constructor; cbn [In map fst]; intuition discriminate.
  - repeat constructor; try discriminate; try lia.
  - intros [|i] Hi; [reflexivity|cbn in Hi; lia].
  - exact (osc_no_rule g A Rk S).
Qed.
Print Assumptions C40_refuted.

(** ** C41: the Schur factors are cut at the first explosive root *)

(** Full statement: the stable blocks hold exactly the roots inside the unit circle.  Proved:
    the blocks are cut at the first root beyond one, and before the last root when there is
    no such root; so, when no root is on the circle, the cut is right exactly if there is an
    explosive root, and the first one is beyond one or the only one. *)
Theorem C41_partial :
  forall (F : Type) (O : rops F) (finv : F -> F) (le : F -> F -> Prop) (ltb : F -> F -> bool)
    (ordqz : nat -> mat F -> mat F -> res (schur F)) (N : nat) (D E : mat F) (A : nd F) (s : state F),
  is_field O finv -> is_ordered O le -> (forall x y, ltb x y = false <-> le y x) -> schur_routine F O le ordqz ->
  partitioned_qz F O ltb ordqz A (M2 N N D) (M2 N N E) = Ok s ->
  List.length (eigen s) = N /\
  exists m, m < N /\
    (exists f, T11 s = M2 m m f) /\ (exists f, S11 s = M2 m m f) /\ (exists f, Z11 s = M2 m m f) /\ (exists f, Z22 s = M2 (N - m) (N - m) f) /\
    (forall i, i < m -> ~ beyond_one F O le (nth i (eigen s) Nan)) /\
    (beyond_one F O le (nth m (eigen s) Nan) \/ S m = N /\ forall e, In e (eigen s) -> ~ beyond_one F O le e) /\
    (forall k, separated F O le (eigen s) k -> (m = k <-> k < N /\ (beyond_one F O le (nth k (eigen s) Nan) \/ S k = N))).
Proof.
  intros F O finv le ltb ordqz N D E A s FT OR Hl Hqz H.
  unfold partitioned_qz in H; rewrite !Nat.eqb_refl in H; cbn [andb negb] in H.
  destruct (ordqz N E D) as [q0|] eqn:Eq; [|discriminate H]; cbn [bind] in H.
  destruct (find_first _) as [kk|] eqn:Ek; [|discriminate H]; cbn [bind] in H; injection H as <-; cbn [eigen T11 S11 Z11 Z22].
  pose proof (f_len _ _ _ _ _ _ _ (Hqz _ _ _ _ Eq)) as LN.
  split; [exact LN|]; exists (cut N kk).
  pose proof (cut_lt F O ltb (q_eig q0) kk Ek) as CL; rewrite LN in CL; split; [exact CL|].
  split; [eauto|]; split; [eauto|]; split; [eauto|]; split; [eauto|].
  assert (Nth : forall i, i < N -> nth i (map (above F O ltb) (q_eig q0)) false = above F O ltb (nth i (q_eig q0) Nan)) by (intros i Hi; apply nth_above; lia).
  assert (NB : forall e, above F O ltb e = false -> ~ beyond_one F O le e) by (intros e He B; apply (above_iff F O le OR ltb Hl) in B; congruence).
  pose proof (find_first_spec _ _ Ek) as [_ Sp]; rewrite map_length, LN in Sp.
  split; [|split].
  - intros i Hi; apply NB; rewrite <- Nth by lia; destruct Sp as [(m & _ & Em & _ & Fl)|[_ Fl]]; apply Fl; lia.
  - destruct Sp as [(m & Hm & Em & T & _)|[Em Fl]].
    + left; apply (above_iff F O le OR ltb Hl); rewrite Em, <- Nth by exact Hm; exact T.
    + right; split; [lia|]; intros e Ie; apply NB; apply (In_nth _ _ Nan) in Ie as (i & Hi & <-); rewrite LN in Hi; rewrite <- Nth by exact Hi; apply Fl, Hi.
  - intros k (Hk & Hin & Hout); rewrite <- LN; apply (cut_exact F O finv FT le OR ltb Hl (q_eig q0) kk k Ek Hk Hin).
    intros i Hi; apply (outside_not_inside F O le OR), Hout, Hi.
Qed.
Print Assumptions C41_partial.

Definition three_qz := qz_with [Factors
  [[q 1 2; z0; z0]; [z0; q (-2) 1; z0]; [z0; z0; q 3 1]] [[z1; z0; z0]; [z0; z1; z0]; [z0; z0; z1]]
  [Fin (q 1 2) z0; Fin (q (-2) 1) z0; Fin (q 3 1) z0] [[z1; z0; z0]; [z0; z1; z0]; [z0; z0; z1]] [[z1; z0; z0]; [z0; z1; z0]; [z0; z0; z1]]].
Definition three_E : table := [[q 1 2; z0; z0]; [z0; q (-2) 1; z0]; [z0; z0; q 3 1]].
Definition rows {F} (a : nd F) : nat := match a with M2 r _ _ => r | _ => 0 end.
(** The roots 1/2, -2 and 3 are cut after the second. *)
Theorem C41_refuted :
  ~ (forall (ltb : Qc -> Qc -> bool) (ordqz : nat -> mat Qc -> mat Qc -> res (schur Qc)) (N : nat) (D E : mat Qc) (A : nd Qc) (s : state Qc) (k : nat),
     (forall x y, ltb x y = false <-> Qcle y x) -> schur_routine Qc QO Qcle ordqz ->
     partitioned_qz Qc QO ltb ordqz A (M2 N N D) (M2 N N E) = Ok s -> 0 < k < N -> separated Qc QO Qcle (eigen s) k -> rows (T11 s) = k).
Proof.
  intros H.
  assert (E : match partitioned_qz Qc QO qlt three_qz (S0 z0) (M2 3 3 (mid Qc QO)) (M2 3 3 (mx three_E)) with
    Ok s => (rows (T11 s) =? 2) && match eigen s with [Fin a b; Fin c d; Fin e f] => same a (q 1 2) && same b z0 && same c (q (-2) 1) && same d z0 && same e (q 3 1) && same f z0 | _ => false end
    | Err _ => false end = true) by (vm_compute; reflexivity).
  destruct (partitioned_qz _ _ _ _ _ _ _) as [s|] eqn:Es; [|discriminate E].
  apply andb_true_iff in E as [E1 E2]; apply Nat.eqb_eq in E1.
  destruct (eigen s) as [|[a b| |] [|[c d| |] [|[e f| |] [|? ?]]]] eqn:Ee; try discriminate E2.
  repeat (apply andb_true_iff in E2 as [E2 ?]); repeat match goal with G : same _ _ = true |- _ => apply same_eq in G end; subst.
  pose proof (H qlt three_qz 3 _ _ _ s 1 qlt_le (qz_with_ok _) Es ltac:(lia)) as G; rewrite E1, Ee in G; discriminate G.
  split; [cbn; lia|]; split.
  - intros [|i] Hi; [|lia]; cbn [nth]; apply is_inside_ok; vm_compute; reflexivity.
  - intros [|[|[|i]]] Hi; try (cbn in Hi; lia); cbn; apply qlt_true; vm_compute; reflexivity.
Qed.
Print Assumptions C41_refuted.

Example C41_nonvacuous :
  schur_routine Qc QO Qcle three_qz /\
  exists s, partitioned_qz Qc QO qlt three_qz (S0 z0) (M2 3 3 (mid Qc QO)) (M2 3 3 (mx three_E)) = Ok s /\ separated Qc QO Qcle (eigen s) 1.
Proof.
  split; [apply qz_with_ok|].
  assert (E : match partitioned_qz Qc QO qlt three_qz (S0 z0) (M2 3 3 (mid Qc QO)) (M2 3 3 (mx three_E)) with
    Ok s => match eigen s with [Fin a b; Fin c d; Fin e f] => same a (q 1 2) && same b z0 && same c (q (-2) 1) && same d z0 && same e (q 3 1) && same f z0 | _ => false end
    | Err _ => false end = true) by (vm_compute; reflexivity).
  destruct (partitioned_qz _ _ _ _ _ _ _) as [s|] eqn:Es; [|discriminate E]; exists s; split; [reflexivity|].
  destruct (eigen s) as [|[a b| |] [|[c d| |] [|[e f| |] [|? ?]]]] eqn:Ee; try discriminate E.
  repeat (apply andb_true_iff in E as [E ?]); repeat match goal with G : same _ _ = true |- _ => apply same_eq in G end; subst.
  split; [cbn; lia|]; split.
  - intros [|i] Hi; [|lia]; cbn [nth]; apply is_inside_ok; vm_compute; reflexivity.
  - intros [|[|[|i]]] Hi; try (cbn in Hi; lia); cbn; apply qlt_true; vm_compute; reflexivity.
Qed.

(** ** C72: a model that meets the Blanchard-Kahn conditions is solved *)

(** Full statement: if as many roots are inside the unit circle as there are variables with a
    lag, and all others outside, a solution is returned unless a numerical routine fails or
    the static variables are not identified.  Proved for models with shocks, with a variable
    with a lead, and with a variable with a lag and no lead or exactly one with both, whose
    first explosive root is beyond one or the only one. *)
Theorem C72_partial :
  forall (F : Type) (O : rops F) (finv : F -> F) (le : F -> F -> Prop) (ltb : F -> F -> bool)
    (qr : nat -> nat -> mat F -> res (mat F * mat F)) (rank : nat -> nat -> mat F -> nat) (ordqz : nat -> mat F -> mat F -> res (schur F))
    (inv : nat -> mat F -> res (mat F)) (solve : nat -> nat -> mat F -> mat F -> res (mat F))
    (lls : list (string * list Z)) (k : nat) (X : indexes) (J : mat F),
  is_field O finv -> is_ordered O le -> (forall x y, ltb x y = false <-> le y x) -> qr_routine F O qr -> schur_routine F O le ordqz ->
  NoDup (map fst lls) -> in_range (map snd lls) -> (forall i, i < List.length lls -> at_k (map snd lls) i 0 = true) ->
  index_manager lls k = Ok X ->
  let L := map snd lls in
  let number c := List.length (members_of L c) in
  let JJ := M2 (List.length L) (List.length (timed_vars L) + k) J in
  0 < k -> 0 < number (forward L) -> 0 < number (pure_backward L) \/ number (mixed L) = 1 ->
  (forall s, state_space F O ltb qr rank ordqz X JJ = Ok s -> separated F O le (eigen s) (number (backward L)) /\
     (beyond_one F O le (nth (number (backward L)) (eigen s) Nan) \/ number (forward L) = 1)) ->
  match state_space F O ltb qr rank ordqz X JJ with
  | Ok s =>
      match solve_first_order F O inv solve X s with
      | Ok _ => True
      | Err e => (exists j A, inv j A = Err e) \/ (exists j l A B, solve j l A B = Err e)
      end
  | Err e => (exists j l A, qr j l A = Err e) \/ (exists j A B, ordqz j A B = Err e) \/
      (e = ModelIdErr "" /\ exists A R, qr (List.length L) (number (static L)) A = Ok R /\ rank (List.length L) (number (static L)) (snd R) <> number (static L))
  end.
Proof.
  intros F O finv le ltb qr rank ordqz inv solve lls k X J FT OR Hl Hqr Hqz Hn Hr H0 HX L number JJ Hk Hf Good Hs.
  rewrite (index_manager_array lls k Hn Hr) in HX; injection HX as <-; fold L; rewrite <- (map_length snd lls) in H0; fold L in H0.
  fold L in Hs.
  destruct (state_space F O ltb qr rank ordqz (array L k) JJ) as [s|e] eqn:Es.
  - destruct (solve_first_order F O inv solve (array L k) s) as [r|e] eqn:Eg; [exact I|].
    destruct (Hs s eq_refl) as ((A & B & C) & D).
    assert (Hnb : 0 < List.length (PB L) + List.length (MX L)) by (change (0 < List.length (PB L) \/ List.length (MX L) = 1) in Good; lia).
    assert (LN : List.length (eigen s) = number (backward L) + number (forward L)).
    { destruct (state_inv F O finv FT ltb qr rank ordqz Hqr L k H0 Hnb J s Es) as (a & Q & _ & _ & _ & _ & d & e' & q0 & kk & _ & Eq & _ & ->).
      unfold number; rewrite (nb_is L k H0), (nf_is L k H0); exact (f_len _ _ _ _ _ _ _ (Hqz _ _ _ _ Eq)). }
    apply (solve_errors F O finv FT le OR ltb Hl qr rank ordqz inv solve Hqr Hqz L k H0 J s e Es Hk B); try assumption.
    intros i Hi; apply (outside_not_inside F O le OR), C; rewrite LN; exact Hi.
  - exact (state_errors F O finv FT le ltb qr rank ordqz Hqr Hqz L k H0 J e Good Es).
Qed.
Print Assumptions C72_partial.

(** What a solved model has: a variable with a lag, one with a lead, a shock, a variable with
    a lag and no lead or exactly one with both; and if it meets the conditions, the first
    explosive root is beyond one or the only one. *)
Theorem C72_needed :
  forall (F : Type) (O : rops F) (finv : F -> F) (le : F -> F -> Prop) (ltb : F -> F -> bool)
    (qr : nat -> nat -> mat F -> res (mat F * mat F)) (rank : nat -> nat -> mat F -> nat) (ordqz : nat -> mat F -> mat F -> res (schur F))
    (inv : nat -> mat F -> res (mat F)) (solve : nat -> nat -> mat F -> mat F -> res (mat F))
    (lls : list (string * list Z)) (k : nat) (X : indexes) (J : mat F) (s : state F) (g : nd F * nd F),
  is_field O finv -> is_ordered O le -> (forall x y, ltb x y = false <-> le y x) -> qr_routine F O qr -> schur_routine F O le ordqz ->
  NoDup (map fst lls) -> in_range (map snd lls) -> index_manager lls k = Ok X ->
  let L := map snd lls in
  let number c := List.length (members_of L c) in
  state_space F O ltb qr rank ordqz X (M2 (List.length L) (List.length (timed_vars L) + k) J) = Ok s ->
  solve_first_order F O inv solve X s = Ok g ->
  0 < number (backward L) /\ 0 < number (forward L) /\ 0 < k /\ (0 < number (pure_backward L) \/ number (mixed L) = 1) /\
  (forall i, i < List.length L -> at_k L i 0 = true) /\
  (separated F O le (eigen s) (number (backward L)) -> beyond_one F O le (nth (number (backward L)) (eigen s) Nan) \/ number (forward L) = 1).
Proof.
  intros F O finv le ltb qr rank ordqz inv solve lls k X J s g FT OR Hl Hqr Hqz Hn Hr HX L number Hs Hg.
  rewrite (index_manager_array lls k Hn Hr) in HX; injection HX as <-; fold L in Hs, Hg.
  pose proof (solved_current F O ltb qr rank ordqz inv solve L k J _ s g Hr Hs Hg) as H0.
  destruct (solved_inv F O finv FT le ltb qr rank ordqz inv solve Hqr Hqz L k H0 J s g Hs Hg) as (Hb & LN & Hk & kk & Ek & Ec).
  split; [exact Hb|]; split; [|split; [exact Hk|split; [|split; [exact H0|]]]].
  - pose proof (cut_lt F O ltb (eigen s) kk Ek) as CL; rewrite LN, Ec in CL; unfold number; lia.
  - destruct (Nat.eq_dec (number (pure_backward L)) 0) as [P0|P0]; [|left; lia].
    destruct (Nat.eq_dec (number (mixed L)) 1) as [M1|M1]; [right; exact M1|exfalso].
    exact (two_mixed F O finv FT ltb qr rank ordqz Hqr L k H0 J s P0 M1 Hs).
  - intros (A & B & C); unfold number.
    rewrite <- LN in Ec; apply (cut_exact F O finv FT le OR ltb Hl (eigen s) kk _ Ek A B) in Ec as [_ [Ec|Ec]];
      [left; exact Ec|right; rewrite LN in Ec; unfold number in *; lia|].
    intros i Hi; apply (outside_not_inside F O le OR), C, Hi.
Qed.
Print Assumptions C72_needed.

(** Exactly which state spaces are solved, whatever the roots: those of models with shocks,
    all of whose variables appear in the current period, whose roots are cut after as many as
    there are variables with a lag.  For these every failure is a failure of a routine. *)
Theorem C72_exact :
  forall (F : Type) (O : rops F) (finv : F -> F) (le : F -> F -> Prop) (ltb : F -> F -> bool)
    (qr : nat -> nat -> mat F -> res (mat F * mat F)) (rank : nat -> nat -> mat F -> nat) (ordqz : nat -> mat F -> mat F -> res (schur F))
    (inv : nat -> mat F -> res (mat F)) (solve : nat -> nat -> mat F -> mat F -> res (mat F))
    (lls : list (string * list Z)) (k : nat) (X : indexes) (J : mat F) (s : state F),
  is_field O finv -> is_ordered O le -> (forall x y, ltb x y = false <-> le y x) -> qr_routine F O qr -> schur_routine F O le ordqz ->
  NoDup (map fst lls) -> in_range (map snd lls) -> index_manager lls k = Ok X ->
  let L := map snd lls in
  let number c := List.length (members_of L c) in
  state_space F O ltb qr rank ordqz X (M2 (List.length L) (List.length (timed_vars L) + k) J) = Ok s ->
  let fits := (forall i, i < List.length L -> at_k L i 0 = true) /\ 0 < k /\ cut_after F O le (eigen s) (number (backward L)) in
  match solve_first_order F O inv solve X s with
  | Ok _ => fits
  | Err e => fits -> (exists j A, inv j A = Err e) \/ (exists j l A B, solve j l A B = Err e)
  end.
Proof.
  intros F O finv le ltb qr rank ordqz inv solve lls k X J s FT OR Hl Hqr Hqz Hn Hr HX L number Hs fits.
  rewrite (index_manager_array lls k Hn Hr) in HX; injection HX as <-; fold L in Hs |- *.
  destruct (solve_first_order F O inv solve (array L k) s) as [g|e] eqn:Hg.
  - pose proof (solved_current F O ltb qr rank ordqz inv solve L k J _ s g Hr Hs Hg) as H0.
    destruct (solved_inv F O finv FT le ltb qr rank ordqz inv solve Hqr Hqz L k H0 J s g Hs Hg) as (_ & LN & Hk & kk & Ek & Ec).
    split; [exact H0|]; split; [exact Hk|]; rewrite <- LN in Ec; apply (cut_iff F O le OR ltb Hl _ _ _ Ek), Ec.
  - intros (H0 & Hk & Hc).
    exact (solve_errors_at F O finv FT le OR ltb Hl qr rank ordqz inv solve Hqr Hqz L k H0 J s e Hs Hk Hc Hg).
Qed.
Print Assumptions C72_exact.

(** x = x(-1)/2 + e, y(+1) = -2 y + e, z(+1) = 3 z + e: one root inside, two outside, one
    variable with a lag and two with a lead; no routine fails, and the solution is refused. *)
Definition two : list (string * list Z) := [("x", [-1; 0]); ("y", [0; 1]); ("z", [0; 1])]%Z.
Definition two_J : table := [[q (-1) 2; z1; z0; z0; z0; z0; q (-1) 1]; [z0; z0; q 2 1; z0; z1; z0; q (-1) 1]; [z0; z0; z0; q (-3) 1; z0; z1; q (-1) 1]].
Definition two_inv := inv_with [[[z1; z0]; [z0; z1]]; []].
Definition two_solve := solve_with [[]].
Theorem C72_refuted :
  ~ (forall (qr : nat -> nat -> mat Qc -> res (mat Qc * mat Qc)) (rank : nat -> nat -> mat Qc -> nat) (ordqz : nat -> mat Qc -> mat Qc -> res (schur Qc))
       (inv : nat -> mat Qc -> res (mat Qc)) (solve : nat -> nat -> mat Qc -> mat Qc -> res (mat Qc))
       (lls : list (string * list Z)) (k : nat) (X : indexes) (J : mat Qc) (s : state Qc) (e : exn),
     qr_routine Qc QO qr -> schur_routine Qc QO Qcle ordqz -> inverse_routine Qc QO inv -> linear_routine Qc QO solve ->
     NoDup (map fst lls) -> in_range (map snd lls) -> (forall i, i < List.length lls -> at_k (map snd lls) i 0 = true) ->
     index_manager lls k = Ok X ->
     let L := map snd lls in
     let number c := List.length (members_of L c) in
     0 < k -> 0 < number (forward L) -> 0 < number (pure_backward L) \/ number (mixed L) = 1 ->
     state_space Qc QO qlt qr rank ordqz X (M2 (List.length L) (List.length (timed_vars L) + k) J) = Ok s ->
     separated Qc QO Qcle (eigen s) (number (backward L)) ->
     solve_first_order Qc QO inv solve X s = Err e -> (exists j A, inv j A = Err e) \/ (exists j l A B, solve j l A B = Err e)).
Proof.
  intros H.
  assert (E : match index_manager two 1 with Ok X =>
    match state_space Qc QO qlt (qr_with []) rank_all three_qz X (M2 3 7 (mx two_J)) with Ok s =>
      match eigen s with [Fin a b; Fin c d; Fin e f] => same a (q 1 2) && same b z0 && same c (q (-2) 1) && same d z0 && same e (q 3 1) && same f z0 | _ => false end &&
      match solve_first_order Qc QO two_inv two_solve X s with Err ValueErr => true | _ => false end
    | Err _ => false end | Err _ => false end = true) by (vm_compute; reflexivity).
  destruct (index_manager two 1) as [X|] eqn:EX; [|discriminate E].
  destruct (state_space _ _ _ _ _ _ X _) as [s|] eqn:Es; [|discriminate E].
  apply andb_true_iff in E as [E2 E].
  destruct (solve_first_order _ _ _ _ X s) as [?|[]] eqn:Eg; try discriminate E; clear E.
  destruct (eigen s) as [|[a b| |] [|[c d| |] [|[e f| |] [|? ?]]]] eqn:Ee; try discriminate E2.
  repeat (apply andb_true_iff in E2 as [E2 ?]); repeat match goal with G : same _ _ = true |- _ => apply same_eq in G end; subst.
  destruct (H (qr_with []) rank_all three_qz two_inv two_solve two 1 X (mx two_J) s ValueErr) as [(j & A & F)|(j & l & A & B & F)]; try assumption; try (cbn; lia).
  - apply qr_with_ok.
  - apply qz_with_ok.
  - apply inv_with_ok.
  - apply solve_with_ok.
  - repeat constructor; cbn [In map fst]; intuition discriminate.
  - repeat constructor; try discriminate; try lia.
  - intros [|[|[|i]]] Hi; try reflexivity; cbn in Hi; lia.
  - rewrite Ee; split; [cbn; lia|]; split.
    + intros [|i] Hi; [|cbn in Hi; lia]; cbn [nth]; apply is_inside_ok; vm_compute; reflexivity.
    + intros [|[|[|i]]] Hi; try (cbn in Hi; lia); cbn; apply qlt_true; vm_compute; reflexivity.
  - unfold two_inv, inv_with in F; destruct (find _ _); discriminate F.
  - unfold two_solve, solve_with in F; destruct (find _ _); discriminate F.
Qed.
Print Assumptions C72_refuted.

(** The model of [C40_nonvacuous] meets the conditions. *)
Example C72_nonvacuous :
  let L := map snd xyz in
  0 < List.length (members_of L (forward L)) /\ 0 < List.length (members_of L (pure_backward L)) /\ List.length (members_of L (backward L)) = 2 /\
  exists X s, index_manager xyz 1 = Ok X /\ state_space Qc QO qlt xyz_qr rank_all xyz_qz X (M2 3 7 (mx xyz_J)) = Ok s /\
    separated Qc QO Qcle (eigen s) 2 /\ beyond_one Qc QO Qcle (nth 2 (eigen s) Nan) /\ exists g, solve_first_order Qc QO xyz_inv xyz_solve X s = Ok g.
Proof.
  cbn zeta; split; [cbn; lia|]; split; [cbn; lia|]; split; [reflexivity|].
  assert (E : match xyz_solution with
    Ok (s, _) => match eigen s with [Fin a b; Fin c d; Fin e f] => same a (q 1 2) && same b z0 && same c (q 3 4) && same d z0 && same e (q 2 1) && same f z0 | _ => false end
    | Err _ => false end = true) by (vm_compute; reflexivity).
  unfold xyz_solution in E; destruct (index_manager xyz 1) as [X|]; [|discriminate E]; cbn [bind] in E; unfold solution in E.
  destruct (state_space _ _ _ _ _ _ X _) as [s|] eqn:Es; [|discriminate E]; cbn [bind] in E.
  destruct (solve_first_order _ _ _ _ X s) as [g|] eqn:Eg; [|discriminate E]; cbn [bind] in E.
  destruct (eigen s) as [|[a b| |] [|[c d| |] [|[e f| |] [|? ?]]]] eqn:Ee; try discriminate E.
  repeat (apply andb_true_iff in E as [E ?]); repeat match goal with G : same _ _ = true |- _ => apply same_eq in G end; subst.
  exists X, s; split; [reflexivity|]; split; [exact Es|]; rewrite Ee; split; [|split; [|exists g; exact Eg]].
  - split; [cbn; lia|]; split.
    + intros [|[|i]] Hi; try (cbn in Hi; lia); cbn [nth]; apply is_inside_ok; vm_compute; reflexivity.
    + intros [|[|[|i]]] Hi; try (cbn in Hi; lia); cbn; apply qlt_true; vm_compute; reflexivity.
  - left; apply qlt_true; vm_compute; reflexivity.
Qed.

(** ** C73: a model without a unique stable solution is refused *)

(** Full statement: if a solution is returned, as many roots are inside the unit circle as
    there are variables with a lag, and all others outside.  Proved when the roots are real,
    not negative and not on the circle, and one is outside. *)
Theorem C73_partial :
  forall (F : Type) (O : rops F) (finv : F -> F) (le : F -> F -> Prop) (ltb : F -> F -> bool)
    (qr : nat -> nat -> mat F -> res (mat F * mat F)) (rank : nat -> nat -> mat F -> nat) (ordqz : nat -> mat F -> mat F -> res (schur F))
    (inv : nat -> mat F -> res (mat F)) (solve : nat -> nat -> mat F -> mat F -> res (mat F))
    (lls : list (string * list Z)) (k : nat) (X : indexes) (J : mat F) (s : state F) (g : nd F * nd F),
  is_field O finv -> is_ordered O le -> (forall x y, ltb x y = false <-> le y x) -> qr_routine F O qr -> schur_routine F O le ordqz ->
  NoDup (map fst lls) -> in_range (map snd lls) -> index_manager lls k = Ok X ->
  let L := map snd lls in
  state_space F O ltb qr rank ordqz X (M2 (List.length L) (List.length (timed_vars L) + k) J) = Ok s ->
  solve_first_order F O inv solve X s = Ok g ->
  (forall e, In e (eigen s) -> not_negative F O le e /\ (inside_circle F O le e \/ outside_circle F O le e)) ->
  (exists e, In e (eigen s) /\ outside_circle F O le e) ->
  List.length (eigen s) = List.length (members_of L (backward L)) + List.length (members_of L (forward L)) /\
  separated F O le (eigen s) (List.length (members_of L (backward L))).
Proof.
  intros F O finv le ltb qr rank ordqz inv solve lls k X J s g FT OR Hl Hqr Hqz Hn Hr HX L Hs Hg Hall (e & Ie & He).
  rewrite (index_manager_array lls k Hn Hr) in HX; injection HX as <-; fold L in Hs, Hg.
  pose proof (solved_current F O ltb qr rank ordqz inv solve L k J _ s g Hr Hs Hg) as H0.
  destruct (solved_inv F O finv FT le ltb qr rank ordqz inv solve Hqr Hqz L k H0 J s g Hs Hg) as (Hb & LN & Hk & kk & Ek & Ec).
  split; [exact LN|].
  assert (Be : beyond_one F O le e) by (apply (outside_beyond F O finv FT le OR); [apply Hall, Ie|exact He]).
  destruct (cut_first F O le OR ltb Hl (eigen s) kk Ek (ex_intro _ e (conj Ie Be))) as (C1 & C2 & C3); rewrite LN, Ec in C1, C2, C3.
  assert (Hnb : 0 < List.length (PB L) + List.length (MX L)) by (rewrite <- (nb_is L k H0); exact Hb).
  destruct (state_inv F O finv FT ltb qr rank ordqz Hqr L k H0 Hnb J s Hs) as (a & Q & _ & _ & _ & _ & d & e' & q0 & kk' & _ & Eq & _ & ->).
  cbn [eigen state_of] in *.
  pose proof (Hqz _ _ _ _ Eq) as Sf.
  apply (separated_at F O finv FT le OR (q_eig q0) _ (List.length (members_of L (backward L)))); try assumption; try reflexivity.
  - rewrite (f_len _ _ _ _ _ _ _ Sf); exact (f_ordered _ _ _ _ _ _ _ Sf).
  - intros x Ix; apply Hall, Ix.
  - intros x Ix; apply Hall, Ix.
  - rewrite LN; exact C1.
  - intros x Ix B; apply (inside_not_above F O finv FT le OR ltb Hl) in Ix; apply (above_iff F O le OR ltb Hl) in B; congruence.
Qed.
Print Assumptions C73_partial.

(** x = -2 x(-1) + e, y(+1) = 3 y + e has no stable solution: both roots are outside.  The
    explosive rule x = -2 x(-1) + e is returned. *)
Definition bad : list (string * list Z) := [("x", [-1; 0]); ("y", [0; 1])]%Z.
Definition bad_J : table := [[q 2 1; z1; z0; z0; q (-1) 1]; [z0; z0; q (-3) 1; z1; q (-1) 1]].
Definition bad_qz := qz_with [Factors
  [[q (-2) 1; z0]; [z0; q 3 1]] [[z1; z0]; [z0; z1]] [Fin (q (-2) 1) z0; Fin (q 3 1) z0] [[z1; z0]; [z0; z1]] [[z1; z0]; [z0; z1]]].
Definition bad_inv := inv_with [[]; [[z1]]].
Definition bad_solve := solve_with [[[z0]]; [[q (-1) 1]; [q 1 3]]].
Theorem C73_refuted :
  exists X s gy gu, index_manager bad 1 = Ok X /\
    qr_routine Qc QO (qr_with []) /\ schur_routine Qc QO Qcle bad_qz /\ inverse_routine Qc QO bad_inv /\ linear_routine Qc QO bad_solve /\
    state_space Qc QO qlt (qr_with []) rank_all bad_qz X (M2 2 5 (mx bad_J)) = Ok s /\
    solve_first_order Qc QO bad_inv bad_solve X s = Ok (gy, gu) /\
    List.length (members_of (map snd bad) (backward (map snd bad))) = 1 /\
    separated Qc QO Qcle (eigen s) 0 /\ ~ separated Qc QO Qcle (eigen s) 1 /\
    shown gy [[q (-2) 1]; [z0]] = true /\ shown gu [[z1]; [q (-1) 3]] = true.
Proof.
  assert (E : match (do X <- index_manager bad 1; solution QO qlt (qr_with []) rank_all bad_qz bad_inv bad_solve X (M2 2 5 (mx bad_J))) with
    Ok (s, (gy, gu)) => match eigen s with [Fin a b; Fin c d] => same a (q (-2) 1) && same b z0 && same c (q 3 1) && same d z0 | _ => false end &&
      (shown gy [[q (-2) 1]; [z0]] && shown gu [[z1]; [q (-1) 3]])
    | Err _ => false end = true) by (vm_compute; reflexivity).
  destruct (index_manager bad 1) as [X|]; [|discriminate E]; cbn [bind] in E; unfold solution in E.
  destruct (state_space _ _ _ _ _ _ X _) as [s|] eqn:Es; [|discriminate E]; cbn [bind] in E.
  destruct (solve_first_order _ _ _ _ X s) as [[gy gu]|] eqn:Eg; [|discriminate E]; cbn [bind] in E.
  apply andb_true_iff in E as [E2 E]; apply andb_true_iff in E as [E3 E4].
  destruct (eigen s) as [|[a b| |] [|[c d| |] [|? ?]]] eqn:Ee; try discriminate E2.
  repeat (apply andb_true_iff in E2 as [E2 ?]); repeat match goal with G : same _ _ = true |- _ => apply same_eq in G end; subst.
  exists X, s, gy, gu; split; [reflexivity|]; split; [apply qr_with_ok|]; split; [apply qz_with_ok|]; split; [apply inv_with_ok|]; split; [apply solve_with_ok|].
  split; [exact Es|]; split; [exact Eg|]; split; [reflexivity|]; rewrite Ee; split; [|split; [|split; assumption]].
  - split; [cbn; lia|]; split; [intros i Hi; lia|].
    intros [|[|i]] Hi; try (cbn in Hi; lia); cbn; apply qlt_true; vm_compute; reflexivity.
  - intros (_ & Hin & _); specialize (Hin 0 ltac:(lia)); apply is_inside_ok in Hin; vm_compute in Hin; discriminate Hin.
Qed.
Print Assumptions C73_refuted.

Example C73_nonvacuous :
  exists X s g, index_manager xyz 1 = Ok X /\ state_space Qc QO qlt xyz_qr rank_all xyz_qz X (M2 3 7 (mx xyz_J)) = Ok s /\
    solve_first_order Qc QO xyz_inv xyz_solve X s = Ok g /\
    (forall e, In e (eigen s) -> not_negative Qc QO Qcle e /\ (inside_circle Qc QO Qcle e \/ outside_circle Qc QO Qcle e)) /\
    (exists e, In e (eigen s) /\ outside_circle Qc QO Qcle e).
Proof.
  assert (E : match xyz_solution with
    Ok (s, _) => match eigen s with [Fin a b; Fin c d; Fin e f] => same a (q 1 2) && same b z0 && same c (q 3 4) && same d z0 && same e (q 2 1) && same f z0 | _ => false end
    | Err _ => false end = true) by (vm_compute; reflexivity).
  unfold xyz_solution in E; destruct (index_manager xyz 1) as [X|]; [|discriminate E]; cbn [bind] in E; unfold solution in E.
  destruct (state_space _ _ _ _ _ _ X _) as [s|] eqn:Es; [|discriminate E]; cbn [bind] in E.
  destruct (solve_first_order _ _ _ _ X s) as [g|] eqn:Eg; [|discriminate E]; cbn [bind] in E.
  destruct (eigen s) as [|[a b| |] [|[c d| |] [|[e f| |] [|? ?]]]] eqn:Ee; try discriminate E.
  repeat (apply andb_true_iff in E as [E ?]); repeat match goal with G : same _ _ = true |- _ => apply same_eq in G end; subst.
  exists X, s, g; split; [reflexivity|]; split; [exact Es|]; split; [exact Eg|]; rewrite Ee; split.
  - intros x [<-|[<-|[<-|[]]]]; (split; [split; [reflexivity|apply qlt_le; vm_compute; reflexivity]|]).
    + left; apply is_inside_ok; vm_compute; reflexivity.
    + left; apply is_inside_ok; vm_compute; reflexivity.
    + right; cbn; apply qlt_true; vm_compute; reflexivity.
  - exists (Fin (q 2 1) z0); split; [cbn; tauto|]; cbn; apply qlt_true; vm_compute; reflexivity.
Qed.
