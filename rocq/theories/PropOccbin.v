(** Occasionally binding constraints: properties C49-C51 and C65-C69. *)
From Coq Require Import Sorting.Sorted.
From Verif Require Import Base Syntax Eval EvalSpec EvalProofs ModFileSpec Semantics SemanticsSpec SemanticsProofs Factory FactorySpec FactoryProofs
  Indexing IndexingSpec IndexingProofs IndexingProofs2 DynFunc DynSpec DynProofs DynProofs2 DynProofs3
  Nd NdProofs NdInst SimSpec Mat MatProofs SummarySpec SummaryProofs Occbin OccbinSpec OccbinProofs OccbinProofs2 PropFile PropDyn.
Local Open Scope nat_scope.

(** ** C49: the spells of a sequence of regimes describe it *)

(** The last entry of the sequence is not looked at. *)
Theorem C49_refuted : exists vec spells w, locate vec = Ok (spells, w) /\ exists t, t < List.length vec /\ regime_at spells t <> nth t vec false.
Proof. exists [false; true], [(0, false)], None; split; [reflexivity|]; exists 1; split; [cbn; lia|discriminate]. Qed.
Print Assumptions C49_refuted.

(** All the others are reproduced, by spells that alternate, and the warnings are given
    exactly when the last entry looked at is the alternative regime. *)
Theorem C49_partial :
  forall (vec : list bool) (p : nat), List.length vec = S p -> 1 <= p ->
  exists spells w, locate vec = Ok (spells, w) /\ alternate spells /\ fst (nth 0 spells (1, false)) = 0 /\
    (forall t, t < p -> regime_at spells t = nth t vec false) /\
    final_spell vec p (last_start spells) /\
    (w = None <-> nth (p - 1) vec false = false) /\
    (w = Some NeverLeaves <-> forall t, t < p -> nth t vec false = true).
Proof.
  intros vec p HL Hp; destruct (locate_spells vec p HL Hp) as (spells & w & E & A & Z & R & Fs & L).
  exists spells, w; split; [exact E|]; split; [exact A|]; split; [exact Z|]; split; [exact R|]; split; [exact Fs|].
  assert (W : w = regime_warning spells) by (destruct vec; [discriminate|]; cbn in E; injection E as <- <-; reflexivity).
  assert (R0 := R 0 ltac:(lia)).
  destruct spells as [|[s0 b0] [|[s1 b1] spells]]; [cbn in Z; discriminate| |].
  - cbn in Z; subst s0; cbn in L, R0; subst w; cbn [regime_warning last snd]; rewrite <- L; split; [destruct b0; split; congruence|].
    split; [|intros H; rewrite (H 0 ltac:(lia)) in R0; subst b0; reflexivity].
    destruct b0; [|discriminate]; intros _ t Ht; rewrite <- (R t Ht); cbn; reflexivity.
  - cbn in Z; subst s0; assert (W' : w = if snd (last ((0, b0) :: (s1, b1) :: spells) (0, false)) then Some EndsAlternative else None) by (subst w; destruct b0; reflexivity).
    rewrite W', L; split; [destruct (nth (p - 1) vec false); split; congruence|]; split; [destruct (nth (p - 1) vec false); discriminate|].
    intros H; exfalso; destruct Fs as (F1 & F2 & F3).
    assert (P : 0 < last_start ((0, b0) :: (s1, b1) :: spells)).
    { unfold last_start; assert (X : forall k, S k < List.length ((0, b0) :: (s1, b1) :: spells) -> 0 < fst (nth (S k) ((0, b0) :: (s1, b1) :: spells) (0, false))).
      { induction k as [|k IH]; intros Hk; [destruct (A 0 Hk) as [A1 _]; cbn in A1 |- *; exact A1|]; destruct (A (S k) Hk) as [A1 _]; specialize (IH ltac:(lia)); lia. }
      specialize (X (List.length spells)); cbn [List.length] in X; specialize (X ltac:(lia)).
      replace (last ((0, b0) :: (s1, b1) :: spells) (0, false)) with (nth (S (List.length spells)) ((0, b0) :: (s1, b1) :: spells) (0, false)); [exact X|].
      clear; change (nth (S (List.length spells)) ((0, b0) :: (s1, b1) :: spells) (0, false)) with (nth (List.length spells) ((s1, b1) :: spells) (0, false)).
      change (last ((0, b0) :: (s1, b1) :: spells) (0, false)) with (last ((s1, b1) :: spells) (0, false)).
      generalize (s1, b1); induction spells as [|s l IH]; intros a; [reflexivity|]; change (last (a :: s :: l) (0, false)) with (last (s :: l) (0, false)); rewrite <- IH; reflexivity. }
    specialize (F3 P); rewrite !H in F3 by lia; discriminate.
Qed.
Print Assumptions C49_partial.

Example C49_nonvacuous :
  locate [false; true; true; false; true; true; false] = Ok ([(0, false); (1, true); (3, false); (4, true)], Some EndsAlternative) /\
  locate [true; true; true; false] = Ok ([(0, true)], Some NeverLeaves) /\
  locate [false; true; false; false] = Ok ([(0, false); (1, true); (2, false)], None).
Proof. repeat split. Qed.

(** ** C50: a path obeys the sequence of regimes it was simulated under *)

Section Effective.
  Context {F : Type}.
  (** The system that is in force, really, in period [t]: [s] is the first period of the last
      spell. *)
  Definition effective (assumed : nat -> system F) (before_last ref : system F) (s t : nat) : system F :=
    if S t <? s then assumed t else if S t =? s then before_last else ref.
End Effective.

(** What the path obeys, for every guess: the regimes assumed until the last spell begins, with
    the alternative regime in the period before it and the reference regime and its decision
    rule from there on. *)
Theorem C50_effective :
  forall (F : Type) (O : rops F) (inv : nat -> mat F -> res (mat F)) (n k : nat) (gy gu : mat F) (ref alt : system F)
    (periods : nat) (hypo : list bool) (init e : vec F) (rows : list (vec F)),
  is_ring O -> inverts F O n inv -> solves F O n k ref gy gu -> 1 <= periods -> List.length hypo = S periods ->
  guess1 F O inv n k gy gu ref alt periods hypo init e = Ok rows ->
  List.length rows = S periods /\
  exists s, final_spell hypo periods s /\
    (forall t, t < periods -> equations F O n k (effective (fun u => if nth u hypo false then alt else ref) alt ref s t)
       (value F init rows t) (value F init rows (S t)) (value F init rows (S (S t))) (impulse F O e t)) /\
    (forall t, 1 <= t -> s <= t -> t <= periods ->
       forall i, value F init rows (S t) i = Sum F O n (fun j => rmul O (gy i j) (value F init rows t j))).
Proof.
  intros F O inv n k gy gu ref alt periods hypo init e rows RT Hi Sol Hp HL H; unfold guess1 in H.
  destruct (locate_spells hypo periods HL Hp) as (spells & w & E & _ & _ & _ & Fs & _); rewrite E in H; cbn [bind fst] in H.
  apply (guess_ok F O RT inv n k Hi _ _ _ _ ref) in H; [|exact Sol].
  destruct H as (L & Q & R & _); split; [exact L|]; exists (last_start spells); split; [exact Fs|]; split; [intros t Ht; exact (Q t Ht)|].
  intros t H1 Hs Ht i; rewrite (R t H1 Hs Ht); reflexivity.
Qed.
Print Assumptions C50_effective.

(** A guess that ends in the reference regime is obeyed in every period. *)
Theorem C50_partial :
  forall (F : Type) (O : rops F) (inv : nat -> mat F -> res (mat F)) (n k : nat) (gy gu : mat F) (ref alt : system F)
    (periods : nat) (hypo : list bool) (init e : vec F) (rows : list (vec F)),
  is_ring O -> inverts F O n inv -> solves F O n k ref gy gu -> 1 <= periods -> List.length hypo = S periods ->
  nth (periods - 1) hypo false = false ->
  guess1 F O inv n k gy gu ref alt periods hypo init e = Ok rows ->
  List.length rows = S periods /\
  (forall t, t < periods -> equations F O n k (if nth t hypo false then alt else ref)
       (value F init rows t) (value F init rows (S t)) (value F init rows (S (S t))) (impulse F O e t)) /\
  (forall t, 1 <= t <= periods -> (forall u, t <= u < periods -> nth u hypo false = false) ->
     forall i, value F init rows (S t) i = Sum F O n (fun j => rmul O (gy i j) (value F init rows t j))).
Proof.
  intros F O inv n k gy gu ref alt periods hypo init e rows RT Hi Sol Hp HL Hz H.
  destruct (C50_effective F O inv n k gy gu ref alt periods hypo init e rows RT Hi Sol Hp HL H) as (L & s & (S1 & S2 & S3) & Q & R).
  assert (Z : nth s hypo false = false) by (rewrite <- (S2 (periods - 1)) by lia; exact Hz).
  split; [exact L|]; split.
  - intros t Ht; specialize (Q t Ht); unfold effective in Q.
    destruct (Nat.ltb_spec (S t) s) as [A|A]; [exact Q|]; destruct (Nat.eqb_spec (S t) s) as [B|B].
    + specialize (S3 ltac:(lia)); replace (s - 1) with t in S3 by lia; rewrite S3, Z; exact Q.
    + rewrite (S2 t) by lia; rewrite Z; exact Q.
  - intros t [H1 Ht] Hu; destruct (Nat.le_gt_cases s t) as [A|A]; [apply R; lia|].
    specialize (S3 ltac:(lia)); rewrite Hu, Z in S3 by lia; discriminate.
Qed.
Print Assumptions C50_partial.

(** Two constraints: four regimes. *)
Definition regime_of {F} (ref alt0 alt1 dbl : system F) (c : bool * bool) : system F :=
  match c with (true, true) => dbl | (true, false) => alt0 | (false, true) => alt1 | _ => ref end.
Theorem C50_two_partial :
  forall (F : Type) (O : rops F) (inv : nat -> mat F -> res (mat F)) (n k : nat) (gy gu : mat F) (ref alt0 alt1 dbl : system F)
    (periods : nat) (hypo : list (bool * bool)) (init e : vec F) (rows : list (vec F)),
  is_ring O -> inverts F O n inv -> solves F O n k ref gy gu -> 1 <= periods -> List.length hypo = S periods ->
  nth (periods - 1) hypo (false, false) = (false, false) ->
  guess2 F O inv n k gy gu ref alt0 alt1 dbl periods hypo init e = Ok rows ->
  List.length rows = S periods /\
  (forall t, t < periods -> equations F O n k (regime_of ref alt0 alt1 dbl (nth t hypo (false, false)))
       (value F init rows t) (value F init rows (S t)) (value F init rows (S (S t))) (impulse F O e t)) /\
  (forall t, 1 <= t <= periods -> (forall u, t <= u < periods -> nth u hypo (false, false) = (false, false)) ->
     forall i, value F init rows (S t) i = Sum F O n (fun j => rmul O (gy i j) (value F init rows t j))).
Proof.
  intros F O inv n k gy gu ref alt0 alt1 dbl periods hypo init e rows RT Hi Sol Hp HL Hz H; unfold guess2 in H.
  set (h0 := map fst hypo) in *; set (h1 := map snd hypo) in *.
  assert (N0 : forall t, nth t h0 false = fst (nth t hypo (false, false))) by (intros t; unfold h0; rewrite <- (map_nth fst); reflexivity).
  assert (N1 : forall t, nth t h1 false = snd (nth t hypo (false, false))) by (intros t; unfold h1; rewrite <- (map_nth snd); reflexivity).
  destruct (locate_spells h0 periods ltac:(unfold h0; rewrite map_length; exact HL) Hp) as (p0 & w0 & E0 & _ & _ & _ & (A1 & A2 & A3) & _); rewrite E0 in H; cbn [bind fst] in H.
  destruct (locate_spells h1 periods ltac:(unfold h1; rewrite map_length; exact HL) Hp) as (p1 & w1 & E1 & _ & _ & _ & (B1 & B2 & B3) & _); rewrite E1 in H; cbn [bind fst] in H.
  set (s0 := last_start p0) in *; set (s1 := last_start p1) in *; set (s := Nat.max s0 s1) in *.
  apply (guess_ok F O RT inv n k Hi _ _ _ _ ref) in H; [|exact Sol]; destruct H as (L & Q & R & _).
  assert (Z0 : nth s0 h0 false = false) by (rewrite <- (A2 (periods - 1)) by lia; rewrite N0, Hz; reflexivity).
  assert (Z1 : nth s1 h1 false = false) by (rewrite <- (B2 (periods - 1)) by lia; rewrite N1, Hz; reflexivity).
  assert (Y0 : 0 < s0 -> nth (s0 - 1) h0 false = true) by (intros X; rewrite (A3 X), Z0; reflexivity).
  assert (Y1 : 0 < s1 -> nth (s1 - 1) h1 false = true) by (intros X; rewrite (B3 X), Z1; reflexivity).
  assert (Rg : forall t, regime2 F ref alt0 alt1 dbl h0 h1 t = regime_of ref alt0 alt1 dbl (nth t hypo (false, false))).
  { intros t; unfold regime2; rewrite N0, N1; destruct (nth t hypo (false, false)) as [[|] [|]]; reflexivity. }
  split; [exact L|]; split.
  - intros t Ht; specialize (Q t Ht); unfold in_force in Q.
    destruct (Nat.ltb_spec (S t) s) as [A|A]; [rewrite Rg in Q; exact Q|]; destruct (Nat.eqb_spec (S t) s) as [B|B].
    + replace (s - 1) with t in Q by lia; rewrite <- Rg; unfold regime2, final2 in *.
      assert (C : nth t h0 false = true \/ nth t h1 false = true).
      { destruct (Nat.max_spec s0 s1) as [[X Y]|[X Y]]; fold s in Y; [right; replace t with (s1 - 1) by lia; apply Y1; lia|left; replace t with (s0 - 1) by lia; apply Y0; lia]. }
      destruct (nth t h0 false), (nth t h1 false); cbn in *; try exact Q; destruct C; discriminate.
    + rewrite <- Rg; unfold regime2; rewrite (A2 t), (B2 t) by lia; rewrite Z0, Z1; exact Q.
  - intros t [H1 Ht] Hu i; destruct (Nat.le_gt_cases s t) as [A|A]; [rewrite (R t) by lia; reflexivity|]; exfalso.
    destruct (Nat.max_spec s0 s1) as [[X Y]|[X Y]]; fold s in Y.
    + specialize (Y1 ltac:(lia)); rewrite N1, Hu in Y1 by lia; discriminate.
    + specialize (Y0 ltac:(lia)); rewrite N0, Hu in Y0 by lia; discriminate.
Qed.
Print Assumptions C50_two_partial.

(** What the path obeys, for every guess with two constraints: the regimes assumed until the later of
    the two last spells begins; in the period before it the regime of the constraints that are
    assumed to bind then, and that of the second one if none is; the reference regime and its
    decision rule from there on. *)
Definition before_last2 {F} (alt0 alt1 dbl : system F) (c : bool * bool) : system F :=
  match c with (true, true) => dbl | (true, false) => alt0 | _ => alt1 end.
Theorem C50_two_effective :
  forall (F : Type) (O : rops F) (inv : nat -> mat F -> res (mat F)) (n k : nat) (gy gu : mat F) (ref alt0 alt1 dbl : system F)
    (periods : nat) (hypo : list (bool * bool)) (init e : vec F) (rows : list (vec F)),
  is_ring O -> inverts F O n inv -> solves F O n k ref gy gu -> 1 <= periods -> List.length hypo = S periods ->
  guess2 F O inv n k gy gu ref alt0 alt1 dbl periods hypo init e = Ok rows ->
  List.length rows = S periods /\
  exists s0 s1, final_spell (map fst hypo) periods s0 /\ final_spell (map snd hypo) periods s1 /\
    let s := Nat.max s0 s1 in
    (forall t, t < periods -> equations F O n k
       (effective (fun u => regime_of ref alt0 alt1 dbl (nth u hypo (false, false))) (before_last2 alt0 alt1 dbl (nth (s - 1) hypo (false, false))) ref s t)
       (value F init rows t) (value F init rows (S t)) (value F init rows (S (S t))) (impulse F O e t)) /\
    (forall t, 1 <= t -> s <= t -> t <= periods ->
       forall i, value F init rows (S t) i = Sum F O n (fun j => rmul O (gy i j) (value F init rows t j))).
Proof.
  intros F O inv n k gy gu ref alt0 alt1 dbl periods hypo init e rows RT Hi Sol Hp HL H; unfold guess2 in H.
  set (h0 := map fst hypo) in *; set (h1 := map snd hypo) in *.
  assert (N0 : forall t, nth t h0 false = fst (nth t hypo (false, false))) by (intros t; unfold h0; rewrite <- (map_nth fst); reflexivity).
  assert (N1 : forall t, nth t h1 false = snd (nth t hypo (false, false))) by (intros t; unfold h1; rewrite <- (map_nth snd); reflexivity).
  destruct (locate_spells h0 periods ltac:(unfold h0; rewrite map_length; exact HL) Hp) as (p0 & w0 & E0 & _ & _ & _ & F0 & _); rewrite E0 in H; cbn [bind fst] in H.
  destruct (locate_spells h1 periods ltac:(unfold h1; rewrite map_length; exact HL) Hp) as (p1 & w1 & E1 & _ & _ & _ & F1 & _); rewrite E1 in H; cbn [bind fst] in H.
  apply (guess_ok F O RT inv n k Hi _ _ _ _ ref) in H; [|exact Sol]; destruct H as (L & Q & R & _).
  split; [exact L|]; exists (last_start p0), (last_start p1); split; [exact F0|]; split; [exact F1|]; cbv zeta.
  set (s := Nat.max (last_start p0) (last_start p1)) in *; split.
  - intros t Ht; specialize (Q t Ht); unfold in_force in Q; unfold effective.
    destruct (S t <? s); [|destruct (S t =? s); [|exact Q]].
    + unfold regime2 in Q; rewrite N0, N1 in Q; destruct (nth t hypo (false, false)) as [[|] [|]]; exact Q.
    + unfold final2 in Q; rewrite N0, N1 in Q; destruct (nth (s - 1) hypo (false, false)) as [[|] [|]]; exact Q.
  - intros t H1 Hs Ht i; rewrite (R t H1 Hs Ht); reflexivity.
Qed.
Print Assumptions C50_two_effective.

(** *** Concrete cases: two variables, x = e and y = x, in the reference regime; the alternative
    one adds one to x.  A matrix of integers with determinant one or minus one is inverted. *)
Definition det2 (m : mat Z) : Z := Z.sub (Z.mul (m 0 0) (m 1 1)) (Z.mul (m 0 1) (m 1 0)).
Definition inv2 (n : nat) (m : mat Z) : res (mat Z) :=
  if (n =? 2) && (Z.eqb (det2 m) 1 || Z.eqb (det2 m) (-1)) then
    Ok (fun i j => Z.mul (det2 m) (match i, j with 0, 0 => m 1 1 | 0, _ => Z.opp (m 0 1) | _, 0 => Z.opp (m 1 0) | _, _ => m 0 0 end))
  else Err ValueErr.
Lemma inv2_inverts : inverts Z ZO 2 inv2.
Proof.
  intros m m' H i j Hi Hj; unfold inv2 in H; cbn [Nat.eqb andb] in H.
  destruct (Z.eqb_spec (det2 m) 1) as [E|E]; [|destruct (Z.eqb_spec (det2 m) (-1)) as [E'|E']; [|discriminate]]; cbn [orb] in H; injection H as <-;
    destruct i as [|[|i]], j as [|[|j]]; try lia; cbn [Nat.eqb]; unfold Sum; cbn [ZO radd rmul r0 r1 Nd.rsum rsum]; unfold det2 in *; nia.
Qed.
Definition xi : indexes := Indexes [None; None] [Some 0; Some 1] [None; None] 2 1.
Definition jac : mat Z := fun i j => match i, j with 0, 0 => 1%Z | 0, 2 => (-1)%Z | 1, 0 => (-1)%Z | 1, 1 => 1%Z | _, _ => 0%Z end.
Definition sys_ref : system Z := System Z (mzero Z ZO) (fun i j => jac i j) (mzero Z ZO) (vzero Z ZO) (fun i _ => jac i 2).
Definition sys_alt : system Z := System Z (mzero Z ZO) (fun i j => jac i j) (mzero Z ZO) (fun i => match i with 0 => (-1)%Z | _ => 0%Z end) (fun i _ => jac i 2).
Definition gy0 : mat Z := mzero Z ZO.
Definition gu0 : mat Z := fun _ _ => 1%Z.
Lemma gu0_solves : solves Z ZO 2 1 sys_ref gy0 gu0.
Proof.
  split; [|split].
  - intros [|[|i]] [|[|j]] Hi Hj; try lia; reflexivity.
  - intros [|[|i]] [|j] Hi Hj; try lia; reflexivity.
  - intros i Hi; reflexivity.
Qed.
Definition list2 (rows : list (vec Z)) : list (Z * Z) := map (fun v => (v 0, v 1)) rows.
(** Constrained in the second period, then not. *)
Example C50_nonvacuous :
  exists rows, guess1 Z ZO inv2 2 1 gy0 gu0 sys_ref sys_alt 3 [false; true; false; false] (vzero Z ZO) (fun _ => 5%Z) = Ok rows /\
    list2 rows = [(5, 5); (1, 1); (0, 0); (0, 0)]%Z.
Proof. eexists; split; [reflexivity|]; vm_compute; reflexivity. Qed.

(** A guess that ends in the alternative regime is not obeyed: the first period is to be one of
    the reference regime, x = e, and x is e + 1. *)
Theorem C50_refuted :
  exists periods hypo init e rows, List.length hypo = S periods /\
    guess1 Z ZO inv2 2 1 gy0 gu0 sys_ref sys_alt periods hypo init e = Ok rows /\
    exists t, t < periods /\ ~ equations Z ZO 2 1 (if nth t hypo false then sys_alt else sys_ref)
       (value Z init rows t) (value Z init rows (S t)) (value Z init rows (S (S t))) (impulse Z ZO e t).
Proof.
  exists 2, [false; true; true], (vzero Z ZO), (fun _ => 1%Z); eexists; split; [reflexivity|]; split; [reflexivity|].
  exists 0; split; [lia|]; intros H; specialize (H 0 ltac:(lia)); vm_compute in H; discriminate.
Qed.
Print Assumptions C50_refuted.

(** With two constraints, the first of which is assumed to bind from the second period on and the
    second never: the first period follows the second constraint's regime, x = e + 2, though
    the reference regime is assumed then and no constraint's regime is to add two. *)
Definition sys_alt2 : system Z := System Z (mzero Z ZO) (fun i j => jac i j) (mzero Z ZO) (fun i => match i with 0 => (-2)%Z | _ => 0%Z end) (fun i _ => jac i 2).
Theorem C50_two_refuted :
  exists periods hypo init e rows, List.length hypo = S periods /\ (forall c, In c hypo -> snd c = false) /\
    guess2 Z ZO inv2 2 1 gy0 gu0 sys_ref sys_alt sys_alt2 sys_alt2 periods hypo init e = Ok rows /\
    hd_error hypo = Some (false, false) /\ equations Z ZO 2 1 sys_alt2 init (value Z init rows 1) (value Z init rows 2) e /\
    ~ equations Z ZO 2 1 sys_ref init (value Z init rows 1) (value Z init rows 2) e.
Proof.
  exists 2, [(false, false); (true, false); (true, false)], (vzero Z ZO), (fun _ => 1%Z); eexists; split; [reflexivity|].
  split; [intros c [<-|[<-|[<-|[]]]]; reflexivity|]; split; [reflexivity|]; split; [reflexivity|]; split.
  - intros [|[|i]] Hi; [vm_compute; reflexivity|vm_compute; reflexivity|lia].
  - intros H; specialize (H 0 ltac:(lia)); vm_compute in H; discriminate.
Qed.
Print Assumptions C50_two_refuted.

(** The whole solver returns such a path, without a warning of its loop.  The constraint binds
    where x is zero and is relaxed where x is positive. *)
Definition zero_binds (g : list (vec Z)) : res (list (bool * bool)) := Ok (map (fun v => (Z.eqb (v 0) 0, Z.ltb 0 (v 0))) g).
Theorem C50_simulation_refuted :
  exists rows out, occbin_one Z ZO inv2 (Regime Z xi jac (vzero Z ZO)) (Regime Z xi jac (sD Z sys_alt)) (M2 2 0 (fun _ _ => 0%Z)) (V1 2 (fun _ => 1%Z))
      zero_binds (OneShock 0) (Flat Z [1%Z]) None (Some 2) 20 = Ok (rows, [false], out) /\
    list2 rows = [(2, 2); (0, 0)]%Z.
Proof. eexists; eexists; split; [reflexivity|]; vm_compute; reflexivity. Qed.
Print Assumptions C50_simulation_refuted.

(** ** C51: a simulation that ends without warnings is consistent *)

Lemma guess_path_length F O inv n k gy gu sys final start periods init e g :
  guess_path F O inv n k gy gu sys final start periods init e = Ok g -> List.length g = S periods.
Proof.
  assert (Lf : forall rules c h, List.length (follow F O n gy rules c h) = c).
  { intros rules c; revert rules; induction c as [|c IH]; intros [|[P D] rules] h; cbn [follow List.length]; try reflexivity; rewrite IH; reflexivity. }
  unfold guess_path; destruct start as [|b]; [intros H; injection H as <-; cbn [List.length]; rewrite Lf; reflexivity|].
  destruct (inv n _) as [im|]; [|discriminate]; cbn [bind]; destruct (roll _ _ _ _ _ _ _ _ _ _) as [[[|[P0 D0] rs] m]|]; try discriminate.
  cbn [bind]; intros H; injection H as <-; cbn [List.length]; rewrite Lf; reflexivity.
Qed.

(** One constraint.  [rows] is the path, from [x0]; [warns] tells of each shock's period whether
    the loop gave a warning.  For each shock there is a guess [hypo] and a path [g] from the
    current values, with as many entries as periods and one more, where
    - there is no warning exactly when the guess agrees with the constraint evaluated on [g],
    - the next values of the simulation are those of [g], and all later ones if it is the last shock,
    - [g] obeys the regimes in force (see C50). *)
Theorem C51_one_constraint :
  forall (F : Type) (O : rops F) (inv : nat -> mat F -> res (mat F)) (ref alt : regime F) (gy gu : nd F)
    (constr : list (vec F) -> res (list (bool * bool))) (ex : exog_index) (shocks : shock_array F) (init : option (vec F)) (periods : option nat) (max_iter : nat)
    (r a : system F) (k : nat) (gyd gud : mat F) (rows : list (vec F)) (warns : list bool) (out : list (list F)),
  let n := n_endog (g_index F ref) in
  let p := number_of_periods F periods shocks in
  let x0 := match init with Some v => v | None => fun _ => r0 O end in
  is_ring O -> inverts F O n inv ->
  rule_matrix F O (g_index F ref) gy = Ok gyd -> shock_matrix F (g_index F ref) gu = Ok (k, gud) ->
  partition F O (g_index F ref) (g_jac F ref) (fun _ => r0 O) = Ok r ->
  partition F O (g_index F alt) (g_jac F alt) (g_resid F alt) = Ok a ->
  solves F O n k r gyd gud ->
  occbin_one F O inv ref alt gy gu constr ex shocks init periods max_iter = Ok (rows, warns, out) ->
  List.length rows = p /\ List.length warns = List.length (shock_rows F shocks) /\
  forall t, t < List.length (shock_rows F shocks) -> exists hypo e g cs,
    shock_vector F O (positions_of ex) (nth t (shock_rows F shocks) []) e /\
    List.length hypo = S p /\ List.length g = S p /\
    constr g = Ok cs /\ List.length cs = S p /\ (nth t warns false = false <-> consistent hypo cs) /\
    value F x0 rows (S t) = nth 0 g x0 /\
    (S t = List.length (shock_rows F shocks) -> forall u, t + u < p -> value F x0 rows (S (t + u)) = nth u g x0) /\
    exists s, final_spell hypo p s /\ forall u, u < p ->
      equations F O n k (effective (fun u => if nth u hypo false then a else r) a r s u)
        (value F (value F x0 rows t) g u) (value F (value F x0 rows t) g (S u)) (value F (value F x0 rows t) g (S (S u))) (impulse F O e u).
Proof.
  intros F O inv ref alt gy gu constr ex shocks init periods max_iter r a k gyd gud rows warns out n p x0 RT Hi Ey Eu Er Ea Sol H.
  unfold occbin_one in H; destruct (check_shocks F ex shocks); [|discriminate]; cbn [bind] in H.
  fold n p in H; rewrite Ey, Eu in H; cbn [bind fst snd] in H; change (vzero F O) with (fun _ : nat => r0 O) in H; rewrite Er, Ea in H; cbn [bind] in H.
  apply (solve_spec F (list bool) _ _ _ (fun h => List.length h = S p)) in H.
  - destruct H as (L & W & _ & Lt & _ & R); split; [exact L|]; split; [exact W|].
    intros t Ht; destruct (R t Ht) as (h & e & g & j & R1 & R2 & R3 & R4 & R5 & R6 & R7).
    unfold judge1 in R4; destruct (constr g) as [cs|] eqn:Ec; [|discriminate]; cbn [bind] in R4.
    destruct (Nat.eqb_spec (List.length cs) (List.length h)) as [Q|Q]; [|discriminate]; injection R4 as <-; cbn [fst] in R5.
    exists h, e, g, cs; split; [exact (innovations_spec _ _ _ _ _ _ R2)|]; split; [exact R1|].
    fold x0 in R3, R6, R7.
    destruct (C50_effective F O inv n k gyd gud r a p h (value F x0 rows t) e g RT Hi Sol ltac:(lia) R1 R3) as (Lg & s & Fs & Eq & _).
    split; [exact Lg|]; split; [exact Ec|]; split; [congruence|]; split; [rewrite R5; apply mismatch_consistent; exact Q|]; split; [exact R6|]; split; [exact R7|].
    exists s; split; [exact Fs|exact Eq].
  - intros h g j Hh Hj; rewrite (judge1_length F constr h g j Hj); exact Hh.
  - intros h Hh; apply shift1_length; exact Hh.
  - apply repeat_length.
  - intros h i e g Hh Hg; unfold guess1 in Hg; destruct (locate h); [|discriminate]; cbn [bind] in Hg; exact (guess_path_length _ _ _ _ _ _ _ _ _ _ _ _ _ _ Hg).
Qed.
Print Assumptions C51_one_constraint.

(** When a constraint is relaxed exactly where it does not bind, a guess that agrees is the
    evaluated constraint itself. *)
Theorem C51_exact :
  forall hypo cs, (forall c, In c cs -> snd c = negb (fst c)) -> (consistent hypo cs <-> hypo = map fst cs).
Proof.
  intros hypo cs N; split.
  - intros (L & H); apply (nth_ext _ _ false false); [rewrite map_length; congruence|].
    intros t Ht; destruct (H t Ht) as [A B]; rewrite (map_nth fst cs (false, false) t : nth t (map fst cs) false = _).
    assert (I : In (nth t cs (false, false)) cs) by (apply nth_In; lia); specialize (N _ I).
    destruct (fst (nth t cs (false, false))); [exact (A eq_refl)|]; destruct (nth t hypo false); [rewrite (B eq_refl) in N; discriminate|reflexivity].
  - intros ->; split; [rewrite map_length; reflexivity|]; intros t Ht; rewrite map_length in Ht; rewrite (map_nth fst cs (false, false) t : nth t (map fst cs) false = _).
    split; [tauto|]; intros E; assert (I : In (nth t cs (false, false)) cs) by (apply nth_In; exact Ht); rewrite (N _ I), E; reflexivity.
Qed.
Print Assumptions C51_exact.

(** Two constraints: [ravel hypo] is the guess for the first constraint followed by that for the
    second, as are the evaluated constraints. *)
Theorem C51_two_constraints :
  forall (F : Type) (O : rops F) (inv : nat -> mat F -> res (mat F)) (ref alt0 alt1 dbl : regime F) (gy gu : nd F)
    (constr : list (vec F) -> res (list (bool * bool))) (ex : exog_index) (shocks : shock_array F) (init : option (vec F)) (periods : option nat) (max_iter : nat) (restrained : bool)
    (r a0 a1 d : system F) (k : nat) (gyd gud : mat F) (rows : list (vec F)) (warns : list bool) (out : list (list F)),
  let n := n_endog (g_index F ref) in
  let p := number_of_periods F periods shocks in
  let x0 := match init with Some v => v | None => fun _ => r0 O end in
  is_ring O -> inverts F O n inv ->
  rule_matrix F O (g_index F ref) gy = Ok gyd -> shock_matrix F (g_index F ref) gu = Ok (k, gud) ->
  partition F O (g_index F ref) (g_jac F ref) (fun _ => r0 O) = Ok r ->
  partition F O (g_index F alt0) (g_jac F alt0) (g_resid F alt0) = Ok a0 ->
  partition F O (g_index F alt1) (g_jac F alt1) (g_resid F alt1) = Ok a1 ->
  partition F O (g_index F dbl) (g_jac F dbl) (g_resid F dbl) = Ok d ->
  solves F O n k r gyd gud ->
  occbin_two F O inv ref alt0 alt1 dbl gy gu constr ex shocks init periods max_iter restrained = Ok (rows, warns, out) ->
  List.length rows = p /\ List.length warns = List.length (shock_rows F shocks) /\
  forall t, t < List.length (shock_rows F shocks) -> exists hypo e g cs,
    shock_vector F O (positions_of ex) (nth t (shock_rows F shocks) []) e /\
    List.length hypo = S p /\ List.length g = S p /\
    constr g = Ok cs /\ List.length cs = 2 * S p /\ (nth t warns false = false <-> consistent (map fst hypo ++ map snd hypo) cs) /\
    value F x0 rows (S t) = nth 0 g x0 /\
    (S t = List.length (shock_rows F shocks) -> forall u, t + u < p -> value F x0 rows (S (t + u)) = nth u g x0) /\
    (nth (p - 1) hypo (false, false) = (false, false) -> forall u, u < p ->
      equations F O n k (regime_of r a0 a1 d (nth u hypo (false, false)))
        (value F (value F x0 rows t) g u) (value F (value F x0 rows t) g (S u)) (value F (value F x0 rows t) g (S (S u))) (impulse F O e u)) /\
    exists s0 s1, final_spell (map fst hypo) p s0 /\ final_spell (map snd hypo) p s1 /\ let s := Nat.max s0 s1 in forall u, u < p ->
      equations F O n k (effective (fun u => regime_of r a0 a1 d (nth u hypo (false, false))) (before_last2 a0 a1 d (nth (s - 1) hypo (false, false))) r s u)
        (value F (value F x0 rows t) g u) (value F (value F x0 rows t) g (S u)) (value F (value F x0 rows t) g (S (S u))) (impulse F O e u).
Proof.
  intros F O inv ref alt0 alt1 dbl gy gu constr ex shocks init periods max_iter restrained r a0 a1 d k gyd gud rows warns out n p x0 RT Hi Ey Eu Er E0 E1 Ed Sol H.
  unfold occbin_two in H; destruct (check_shocks F ex shocks); [|discriminate]; cbn [bind] in H.
  fold n p in H; rewrite Ey, Eu in H; cbn [bind fst snd] in H; change (vzero F O) with (fun _ : nat => r0 O) in H; rewrite Er, E0, E1, Ed in H; cbn [bind] in H.
  apply (solve_spec F (list (bool * bool)) _ _ _ (fun h => List.length h = S p)) in H.
  - destruct H as (L & W & _ & Lt & _ & R); split; [exact L|]; split; [exact W|].
    intros t Ht; destruct (R t Ht) as (h & e & g & j & R1 & R2 & R3 & R4 & R5 & R6 & R7).
    unfold judge2 in R4; destruct (constr g) as [cs|] eqn:Ec; [|discriminate]; cbn [bind] in R4.
    destruct (Nat.eqb_spec (List.length cs) (List.length (ravel h))) as [Q|Q]; [|discriminate]; injection R4 as <-; cbn [fst] in R5.
    fold x0 in R3, R6, R7.
    assert (Lg : List.length g = S p).
    { unfold guess2 in R3; destruct (locate (map fst h)); [|discriminate]; destruct (locate (map snd h)); [|discriminate]; cbn [bind] in R3; exact (guess_path_length _ _ _ _ _ _ _ _ _ _ _ _ _ _ R3). }
    exists h, e, g, cs; split; [exact (innovations_spec _ _ _ _ _ _ R2)|]; split; [exact R1|]; split; [exact Lg|]; split; [exact Ec|].
    split; [rewrite Q; unfold ravel; rewrite app_length, !map_length, R1; lia|]; split; [rewrite R5; apply mismatch_consistent; exact Q|]; split; [exact R6|]; split; [exact R7|].
    split; [intros Hz; exact (proj1 (proj2 (C50_two_partial F O inv n k gyd gud r a0 a1 d p h (value F x0 rows t) e g RT Hi Sol ltac:(lia) R1 Hz R3)))|].
    destruct (C50_two_effective F O inv n k gyd gud r a0 a1 d p h (value F x0 rows t) e g RT Hi Sol ltac:(lia) R1 R3) as (_ & s0 & s1 & S0 & S1 & Eq & _).
    exists s0, s1; split; [exact S0|]; split; [exact S1|exact Eq].
  - intros h g j Hh Hj; rewrite (judge2_length F restrained constr h g j Hj); exact Hh.
  - intros h Hh; apply shift2_length; exact Hh.
  - apply repeat_length.
  - intros h i e g Hh Hg; unfold guess2 in Hg; destruct (locate (map fst h)); [|discriminate]; destruct (locate (map snd h)); [|discriminate]; cbn [bind] in Hg; exact (guess_path_length _ _ _ _ _ _ _ _ _ _ _ _ _ _ Hg).
Qed.
Print Assumptions C51_two_constraints.

(** The loop of a period: at least one and at most [max_iter] iterations, and all of them if it
    ends in a warning; whatever the paths and the constraints are. *)
Theorem C51_iterations :
  forall (F H : Type) (path : H -> vec F -> vec F -> res (list (vec F))) (judge : H -> list (vec F) -> res (bool * H))
    (max_iter : nat) (init e : vec F) (guess : option (list (vec F))) (hypo : H) (o : outcome F H),
  1 <= max_iter -> iterate F H path judge max_iter init e (Outcome F H guess hypo true 0) = Ok o ->
  1 <= o_iter F H o <= max_iter /\ (o_change F H o = true -> o_iter F H o = max_iter) /\
  exists h g j, path h init e = Ok g /\ judge h g = Ok j /\ o_guess F H o = Some g /\ o_hypo F H o = snd j /\ o_change F H o = fst j.
Proof.
  intros F H path judge max_iter init e guess hypo o Hm E.
  apply (iterate_spec F H path judge (fun _ => True)) in E; [|intros; exact I|reflexivity|exact Hm|exact I].
  destruct E as (h & g & j & _ & E1 & E2 & E3 & E4 & E5 & E6 & E7); cbn [o_iter] in *; split; [lia|]; split; [exact E7|].
  exists h, g, j; repeat split; assumption.
Qed.
Print Assumptions C51_iterations.

(** A run: x falls to zero in the third period, where the alternative regime is assumed and left
    in the end because it makes x positive; it is assumed and left for ever, with a warning. *)
Example C51_nonvacuous :
  exists rows out, occbin_one Z ZO inv2 (Regime Z xi jac (vzero Z ZO)) (Regime Z xi jac (sD Z sys_alt)) (M2 2 0 (fun _ _ => 0%Z)) (V1 2 (fun _ => 1%Z))
      (fun g => Ok (map (fun v => (Z.ltb (v 0) 0, Z.ltb 1 (v 0))) g)) (OneShock 0) (Flat Z [4; -3; 2]%Z) None (Some 5) 20 = Ok (rows, [false; false; false], out) /\
    list2 rows = [(4, 4); (-2, -2); (2, 2); (0, 0); (0, 0)]%Z /\ out = [[4]; [-3]; [2]; [0]; [0]]%Z.
Proof. eexists; eexists; split; [vm_compute; reflexivity|]; split; vm_compute; reflexivity. Qed.
Example C51_nonvacuous_hypotheses :
  (exists r, partition Z ZO xi jac (fun _ => 0%Z) = Ok r /\ solves Z ZO 2 1 r (fun _ _ => 0%Z) (fun _ _ => 1%Z)) /\
  (exists g, rule_matrix Z ZO xi (M2 2 0 (fun _ _ => 0%Z)) = Ok g) /\ exists g, shock_matrix Z xi (V1 2 (fun _ => 1%Z)) = Ok (1, g).
Proof.
  split; [|split; eexists; reflexivity].
  eexists; split; [reflexivity|]; split; [|split].
  - intros [|[|i]] [|[|j]] Hi Hj; try lia; reflexivity.
  - intros [|[|i]] [|j] Hi Hj; try lia; reflexivity.
  - intros i Hi; reflexivity.
Qed.
(** A constraint that is left where it holds: no end, a warning. *)
Example C51_warning :
  exists rows out, occbin_one Z ZO inv2 (Regime Z xi jac (vzero Z ZO)) (Regime Z xi jac (sD Z sys_alt)) (M2 2 0 (fun _ _ => 0%Z)) (V1 2 (fun _ => 1%Z))
      (fun g => Ok (map (fun v => (Z.ltb (v 0) 0, Z.leb 0 (v 0))) g)) (OneShock 0) (Flat Z [-1]%Z) None (Some 5) 20 = Ok (rows, [true], out).
Proof. eexists; eexists; vm_compute; reflexivity. Qed.

(** ** C65: the decision rule of the reference model *)

(** The array of the decision rule has a row for each variable and a column for each state, in
    the order of the decision rule; [cy v s] is the coefficient of variable [v] on state [s].
    The matrix made from it is right in the rows and gives a state the coefficient of the state
    at its place in the order of the decision rule. *)
Theorem C65_rule_exact :
  forall (F : Type) (O : rops F) (x : indexes) (cy : nat -> nat -> F),
  let n := n_endog x in let st := members is_state x in
  Permutation (dr_order x) (seq 0 n) -> 2 <= n -> List.length (dr_states x) <> 1 ->
  exists gy, rule_matrix F O x (squeeze F (M2 n (List.length (dr_states x)) (fun i j => cy (nth i (dr_order x) 0) (nth j (dr_states x) 0)))) = Ok gy /\
    (forall v s, v < n -> In s st -> gy v s = cy v (nth (position s st) (dr_states x) 0)) /\
    (forall v w, v < n -> ~ In w st -> gy v w = r0 O).
Proof. intros F O x cy n st Hp Hn Hs; exact (rule_matrix_two F O x Hp cy Hn Hs). Qed.
Print Assumptions C65_rule_exact.

Theorem C65_partial :
  forall (F : Type) (O : rops F) (x : indexes) (cy : nat -> nat -> F),
  let n := n_endog x in let st := members is_state x in
  Permutation (dr_order x) (seq 0 n) -> 2 <= n -> List.length st <> 1 -> dr_states x = st ->
  exists gy, rule_matrix F O x (squeeze F (M2 n (List.length st) (fun i j => cy (nth i (dr_order x) 0) (nth j st 0)))) = Ok gy /\
    (forall v s, v < n -> In s st -> gy v s = cy v s) /\
    (forall v w, v < n -> ~ In w st -> gy v w = r0 O).
Proof.
  intros F O x cy n st Hp Hn Hs E.
  destruct (C65_rule_exact F O x cy Hp Hn) as (gy & Eg & A & B); [rewrite E; exact Hs|]; rewrite E in Eg, A.
  exists gy; split; [exact Eg|]; split; [|exact B].
  intros v s Hv Hi; rewrite (A v s Hv Hi); f_equal.
  destruct (where_sorted (mask is_state x) 0) as [S N]; fold (members is_state x) in S, N; fold st in S, N.
  apply (In_nth _ _ 0) in Hi as (j & Hj & <-); unfold st; rewrite (position_nth (members is_state x) j S N Hj); reflexivity.
Qed.
Print Assumptions C65_partial.

(** Shocks have no order of their own. *)
Theorem C65_shocks :
  forall (F : Type) (x : indexes) (k : nat) (cu : nat -> nat -> F),
  let n := n_endog x in
  Permutation (dr_order x) (seq 0 n) -> 2 <= n ->
  exists gu, shock_matrix F x (squeeze F (M2 n k (fun i j => cu (nth i (dr_order x) 0) j))) = Ok (k, gu) /\
    forall v j, v < n -> j < k -> gu v j = cu v j.
Proof. intros F x k cu n Hp Hn; exact (shock_matrix_ok F x Hp k cu Hn). Qed.
Print Assumptions C65_shocks.

(** With one state variable, or one variable, there is no simulation. *)
Theorem C65_one_state :
  forall (F : Type) (O : rops F) (inv : nat -> mat F -> res (mat F)) (ref alt : regime F) (gu : nd F)
    (constr : list (vec F) -> res (list (bool * bool))) (ex : exog_index) (shocks : shock_array F) (init : option (vec F)) (periods : option nat) (max_iter : nat) (cy : nat -> nat -> F),
  let x := g_index F ref in let n := n_endog x in
  Permutation (dr_order x) (seq 0 n) -> List.length (dr_states x) = 1 \/ n = 1 ->
  exists e, occbin_one F O inv ref alt
    (squeeze F (M2 n (List.length (dr_states x)) (fun i j => cy (nth i (dr_order x) 0) (nth j (dr_states x) 0)))) gu constr ex shocks init periods max_iter = Err e.
Proof.
  intros F O inv ref alt gu constr ex shocks init periods max_iter cy x n Hp H.
  unfold occbin_one; destruct (check_shocks F ex shocks) as [u|e]; [|eexists; reflexivity]; cbn [bind].
  destruct (rule_matrix_one F O x Hp cy H) as (e & E); fold x; fold n in E; rewrite E; eexists; reflexivity.
Qed.
Print Assumptions C65_one_state.

(** A variable with a lag and a lead declared before one with only a lag: the states change
    places in the order of the decision rule, and the coefficients do too. *)
Definition xmix : indexes := Indexes [Some 0; Some 1] [Some 2; Some 3] [Some 4; None] 5 1.
Theorem C65_refuted :
  exists (x : indexes) (cy : nat -> nat -> Z), let n := n_endog x in
  Permutation (dr_order x) (seq 0 n) /\ 2 <= n /\
  exists gy, rule_matrix Z ZO x (squeeze Z (M2 n (List.length (dr_states x)) (fun i j => cy (nth i (dr_order x) 0) (nth j (dr_states x) 0)))) = Ok gy /\
    exists v s, v < n /\ In s (members is_state x) /\ gy v s <> cy v s.
Proof.
  exists xmix, (fun v s => Z.of_nat (10 * v + s)); split; [apply perm_swap|]; split; [cbn; lia|]; eexists; split; [reflexivity|].
  exists 0, 0; split; [cbn; lia|]; split; [left; reflexivity|]; vm_compute; discriminate.
Qed.
Print Assumptions C65_refuted.
Definition xtwo : indexes := Indexes [Some 0; Some 1; None] [Some 2; Some 3; Some 4] [None; None; Some 5] 6 1.
Example C65_nonvacuous : Permutation (dr_order xtwo) (seq 0 3) /\ dr_states xtwo = members is_state xtwo /\ members is_state xtwo = [0; 1].
Proof. split; [vm_compute; reflexivity|split; reflexivity]. Qed.

(** ** C66: updating one constraint at a time *)

(** The option has no effect on the result, for any models, constraints and shocks. *)
Theorem C66_no_effect :
  forall (F : Type) (O : rops F) (inv : nat -> mat F -> res (mat F)) (ref alt0 alt1 dbl : regime F) (gy gu : nd F)
    (constr : list (vec F) -> res (list (bool * bool))) (ex : exog_index) (shocks : shock_array F) (init : option (vec F)) (periods : option nat) (max_iter : nat),
  occbin_two F O inv ref alt0 alt1 dbl gy gu constr ex shocks init periods max_iter true =
  occbin_two F O inv ref alt0 alt1 dbl gy gu constr ex shocks init periods max_iter false.
Proof.
  intros; unfold occbin_two.
  destruct (check_shocks F ex shocks); cbn [bind]; [|reflexivity].
  destruct (rule_matrix F O (g_index F ref) gy); cbn [bind]; [|reflexivity].
  destruct (shock_matrix F (g_index F ref) gu); cbn [bind]; [|reflexivity].
  destruct (partition F O (g_index F ref) _ _); cbn [bind]; [|reflexivity].
  destruct (partition F O (g_index F alt0) _ _); cbn [bind]; [|reflexivity].
  destruct (partition F O (g_index F alt1) _ _); cbn [bind]; [|reflexivity].
  destruct (partition F O (g_index F dbl) _ _); cbn [bind]; [|reflexivity].
  unfold solve_loop; rewrite (periods_loop_ext _ _ _ _ (judge2 F false constr)); [reflexivity|].
  intros h g; apply judge2_restrained.
Qed.
Print Assumptions C66_no_effect.

(** With the option both constraints can be updated in one step. *)
Theorem C66_refuted :
  exists (constr : list (vec Z) -> res (list (bool * bool))) hypo g c hypo',
    judge2 Z true constr hypo g = Ok (c, hypo') /\ map fst hypo' <> map fst hypo /\ map snd hypo' <> map snd hypo.
Proof.
  exists (fun _ => Ok [(true, false); (false, false); (false, false); (true, false)]), [(false, false); (false, false)], [], true, [(true, false); (false, true)].
  split; [reflexivity|]; split; discriminate.
Qed.
Print Assumptions C66_refuted.

(** ** C67: the linear systems are the linearised equations *)

(** [J] is a Jacobian with its columns in the order of the timed variables, then the shocks; the
    three matrices hold the derivatives with respect to leads, current values and lags. *)
Theorem C67_coefficients :
  forall (F : Type) (O : rops F) (lls : list (string * list Z)) (k : nat) (x : indexes) (J : mat F) (D : vec F),
  let L := map snd lls in let n := List.length lls in
  NoDup (map fst lls) -> in_range L -> index_manager lls k = Ok x ->
  exists q, partition F O x J D = Ok q /\
    (forall i v, i < n -> v < n ->
       (forall j, nth_error (timed_vars L) j = Some (v, 1%Z) -> sA F q i v = J i j) /\ (at_k L v 1 = false -> sA F q i v = r0 O) /\
       (forall j, nth_error (timed_vars L) j = Some (v, 0%Z) -> sB F q i v = J i j) /\ (at_k L v 0 = false -> sB F q i v = r0 O) /\
       (forall j, nth_error (timed_vars L) j = Some (v, (-1)%Z) -> sC F q i v = J i j) /\ (at_k L v (-1) = false -> sC F q i v = r0 O)) /\
    (forall i, sD F q i = D i) /\
    (forall i j, j < k -> sE F q i j = J i (List.length (timed_vars L) + j)).
Proof.
  intros F O lls k x J D L n Hn Hr Hx; rewrite (index_manager_array lls k Hn Hr) in Hx; injection Hx as <-; fold L.
  assert (N : List.length L = n) by apply map_length.
  assert (Lm : List.length (row_m (array L k)) = List.length L) by exact (array_length L k (-1)%Z).
  assert (L0 : List.length (row_0 (array L k)) = List.length L) by exact (array_length L k 0%Z).
  assert (Lp : List.length (row_p (array L k)) = List.length L) by exact (array_length L k 1%Z).
  assert (Ne : n_endog (array L k) = n) by (unfold n_endog; rewrite <- N; first [exact Lm|exact L0|exact Lp]).
  destruct (partition_ok F O (array L k) J D) as (q & E & Ed & Ea & Eb & Ec & Ee); [congruence..|].
  rewrite Ne in Ea, Eb, Ec.
  exists q; split; [exact E|]; split; [|split; [intros i; rewrite Ed; reflexivity|]].
  - intros i v Hi Hv.
    assert (G : forall z row, row_at (array L k) z = row (array L k) -> (-1 <= z <= 1)%Z -> List.length (row (array L k)) = List.length L ->
       (forall j, nth_error (timed_vars L) j = Some (v, z) -> coefficient F O (array L k) J row i v = J i j) /\ (at_k L v z = false -> coefficient F O (array L k) J row i v = r0 O)).
    { intros z row Ez Hz Hl; unfold coefficient.
      assert (En := array_entry L k z v); rewrite Ez in En.
      split.
      - intros j Hj; apply En in Hj; [|exact Hz]; rewrite (nth_error_nth _ _ None Hj); reflexivity.
      - intros Ha; destruct (nth v (row (array L k)) None) as [c|] eqn:Ev; [|reflexivity]; exfalso.
        assert (X : nth_error (row (array L k)) v = Some (Some c)) by (rewrite <- Ev; apply nth_error_nth'; lia).
        apply En in X; [|exact Hz]; apply nth_error_In in X; unfold timed_vars in X; apply in_flat_map in X as (z' & _ & X).
        apply in_map_iff in X as (v' & X1 & X2); injection X1 as -> ->; apply filter_In in X2 as [_ X2]; congruence. }
    destruct (G 1%Z row_p eq_refl ltac:(lia) Lp) as [A1 A2]; destruct (G 0%Z row_0 eq_refl ltac:(lia) L0) as [B1 B2]; destruct (G (-1)%Z row_m eq_refl ltac:(lia) Lm) as [C1 C2].
    rewrite Ea, Eb, Ec by exact Hi; repeat split; assumption.
  - intros i j Hj; rewrite Ee by exact Hj; rewrite timed_vars_length; reflexivity.
Qed.
Print Assumptions C67_coefficients.

(** The constant of a regime: its equations at the steady state [ss] of the reference model,
    every variable at its steady state and every shock zero. *)
Theorem C67_constant_partial :
  forall (V : Type) (O : ops V) (zero : V) (endog stoch : list string) (exprs : list (ast V)) (params : list (string * V)) (ss : list V),
  NoDup (endog ++ stoch) -> no_clash V endog stoch params -> regular_model V endog exprs ->
  Forall (fun e => well_formed V e /\ declared V endog stoch params e /\ offsets V e /\ forall x k, occurs_t V x k e -> In x endog) exprs ->
  (forall x, In x endog -> lookup x params = None) -> List.length ss = List.length endog ->
  exists m v, build V endog stoch exprs params = Ok m /\ translate_ss (r_index V m) zero ss = Ok v /\
    forall vs, dynamic_call V O zero m v = Ok vs <->
      Forall2 (EvalSpec.value V O (steady_plain V endog stoch params zero ss) (fun x _ => steady_plain V endog stoch params zero ss x)) exprs vs.
Proof.
  intros V O zero endog stoch exprs params ss Nd Nc R W Dj Hs.
  destruct (C29_dynamic_at_steady_state_partial V O zero endog stoch exprs params Nd Nc R W Dj) as (m & E & C29).
  destruct (C29 ss Hs) as [C1 C2].
  assert (Ne : NoDup endog).
  { clear - Nd; induction endog as [|y l IH]; [constructor|]; cbn [app] in Nd; apply NoDup_cons_iff in Nd as [H1 H2]; constructor; [|exact (IH H2)].
    intros G; apply H1, in_app_iff; left; exact G. }
  assert (Ha : Forall (algebraic V) exprs) by (apply Forall_impl with (2 := W); intros e ((_ & H & _) & _); exact H).
  destruct (build_ok V endog exprs stoch params Ne R Ha) as (m' & E' & E1 & E2 & E3 & E4 & lls & El & Ei); rewrite E in E'; injection E' as <-.
  assert (L : List.length endog = List.length (map snd lls)) by (rewrite map_length; symmetry; exact (lls_length V endog exprs lls El)).
  assert (Lm : List.length (row_m (array (map snd lls) (List.length stoch))) = List.length (map snd lls)) by exact (array_length (map snd lls) (List.length stoch) (-1)%Z).
  assert (L0 : List.length (row_0 (array (map snd lls) (List.length stoch))) = List.length (map snd lls)) by exact (array_length (map snd lls) (List.length stoch) 0%Z).
  assert (Lp : List.length (row_p (array (map snd lls) (List.length stoch))) = List.length (map snd lls)) by exact (array_length (map snd lls) (List.length stoch) 1%Z).
  destruct (translate_ok (r_index V m) zero ss) as (v & Ev & St); [rewrite Ei; congruence..|rewrite Ei; unfold n_endog; congruence|].
  exists m, v; split; [exact E|]; split; [exact Ev|].
  assert (Lv : List.length v = n_endog_inc (r_index V m)).
  { specialize (St (List.length stoch)); rewrite Ei, (stacked_array V zero endog stoch _ L ss Hs) in St; apply app_inv_tail in St; subst v.
    rewrite Ei, timed_vars_length; unfold stacked_endog; apply map_length. }
  enough (dynamic_call V O zero m v = steady_call V O zero m ss) as -> by exact C2.
  rewrite <- C1; unfold steady_point; rewrite St; unfold dynamic_call; rewrite app_length, repeat_length, Lv, !Nat.eqb_refl.
  destruct (Nat.eqb_spec (n_endog_inc (r_index V m)) (n_endog_inc (r_index V m) + List.length (r_stoch V m))) as [Z|Z]; [|reflexivity].
  assert (S0 : List.length (r_stoch V m) = 0) by lia; rewrite S0; cbn [repeat]; rewrite app_nil_r; reflexivity.
Qed.
Print Assumptions C67_constant_partial.

Example C67_nonvacuous :
  exists x q, index_manager [("c", [0; 1]); ("k", [0; -1]); ("y", [0]); ("z", [-1; 0; 1])]%string%Z 2 = Ok x /\
    partition Z ZO x (fun i j => Z.of_nat (100 * i + j)) (fun _ => 0%Z) = Ok q /\
    map (sA Z q 1) (seq 0 4) = [106; 0; 0; 107]%Z /\ map (sB Z q 1) (seq 0 4) = [102; 103; 104; 105]%Z /\
    map (sC Z q 1) (seq 0 4) = [0; 100; 0; 101]%Z /\ map (sE Z q 1) (seq 0 2) = [108; 109]%Z.
Proof. eexists; eexists; split; [vm_compute; reflexivity|]; split; [reflexivity|]; vm_compute; repeat split. Qed.
Example C67_constant_nonvacuous :
  exists m v, build (option Z) oendog ostoch omodel oparams = Ok m /\ translate_ss (r_index _ m) (Some 0%Z) [Some 7; Some 2; Some 3]%Z = Ok v /\
    v = [Some 2; Some 7; Some 2; Some 3; Some 7]%Z /\ dynamic_call _ OZ (Some 0%Z) m v = Ok [Some (-14); Some (-3); Some 3]%Z.
Proof. eexists; eexists; split; [vm_compute; reflexivity|]; split; [vm_compute; reflexivity|]; split; vm_compute; reflexivity. Qed.

(** ** C68: models that do not go together are refused *)
Theorem C68_match :
  forall a b : names,
  (ensure_match a b = None <->
     nm_endog a = nm_endog b /\ nm_stoch a = nm_stoch b /\ Permutation (nm_params a) (nm_params b)) /\
  (ensure_match a b = Some EndogDiffer <-> nm_endog a <> nm_endog b) /\
  (ensure_match a b = Some StochDiffer <-> nm_endog a = nm_endog b /\ nm_stoch a <> nm_stoch b) /\
  (ensure_match a b = Some ParamsDiffer <-> nm_endog a = nm_endog b /\ nm_stoch a = nm_stoch b /\ ~ Permutation (nm_params a) (nm_params b)).
Proof.
  intros a b; unfold ensure_match, same_names; rewrite <- sort_same.
  destruct (list_eq_dec string_dec (nm_endog a) (nm_endog b)) as [E|E]; cbn [negb];
    [destruct (list_eq_dec string_dec (nm_stoch a) (nm_stoch b)) as [S|S]; cbn [negb];
      [destruct (list_eq_dec string_dec (sort_names (nm_params a)) (sort_names (nm_params b))) as [P|P]; cbn [negb]|]|];
    repeat split; try intros H; try discriminate H; try tauto; try reflexivity; try (split; tauto).
Qed.
Print Assumptions C68_match.
Example C68_nonvacuous :
  ensure_match (Names ["c"; "k"] ["e"] ["beta"; "alpha"; "rho"])%string (Names ["c"; "k"] ["e"] ["rho"; "beta"; "alpha"])%string = None /\
  ensure_match (Names ["c"; "k"] ["e"] ["beta"])%string (Names ["k"; "c"] ["e"] ["beta"])%string = Some EndogDiffer /\
  ensure_match (Names ["c"; "k"] ["e"] ["beta"])%string (Names ["c"; "k"] ["e"] ["beta"; "x"])%string = Some ParamsDiffer.
Proof. repeat split; vm_compute; reflexivity. Qed.

(** ** C69: what is asked of the shocks and the periods *)

(** A simulation has a row for each period; the shocks come first and are followed by zeros;
    there are no more shocks than periods. *)
Theorem C69_shape :
  forall (F : Type) (O : rops F) (inv : nat -> mat F -> res (mat F)) (ref alt : regime F) (gy gu : nd F)
    (constr : list (vec F) -> res (list (bool * bool))) (ex : exog_index) (shocks : shock_array F) (init : option (vec F)) (periods : option nat) (max_iter : nat)
    (rows : list (vec F)) (warns : list bool) (out : list (list F)),
  occbin_one F O inv ref alt gy gu constr ex shocks init periods max_iter = Ok (rows, warns, out) ->
  let p := match periods with Some (S m) => S m | _ => List.length (shock_rows F shocks) end in
  List.length rows = p /\
  out = shock_rows F shocks ++ repeat (repeat (r0 O) (shock_width F shocks)) (p - List.length (shock_rows F shocks)) /\
  List.length (shock_rows F shocks) <= p /\ (1 <= p -> 1 <= List.length (shock_rows F shocks) /\ 1 <= max_iter) /\
  match ex with OneShock _ => shock_width F shocks = 1 | Shocks l => shock_width F shocks = List.length l /\ exists w rs, shocks = Rows F w rs end.
Proof.
  intros F O inv ref alt gy gu constr ex shocks init periods max_iter rows warns out H p.
  unfold occbin_one in H; destruct (check_shocks F ex shocks) eqn:Ck; [|discriminate]; cbn [bind] in H.
  change (number_of_periods F periods shocks) with p in H.
  destruct (rule_matrix F O (g_index F ref) gy); [|discriminate]; cbn [bind] in H.
  destruct (shock_matrix F (g_index F ref) gu) as [ku|]; [|discriminate]; cbn [bind] in H.
  destruct (partition F O (g_index F ref) _ _); [|discriminate]; cbn [bind] in H.
  destruct (partition F O (g_index F alt) _ _); [|discriminate]; cbn [bind] in H.
  apply (solve_spec F (list bool) _ _ _ (fun h => List.length h = S p)) in H.
  - destruct H as (L & _ & S & Le & N & _); split; [exact L|]; split; [exact S|]; split; [exact Le|]; split; [exact N|].
    destruct ex as [i|l], shocks as [f|w rs]; cbn in Ck |- *; try reflexivity; try discriminate.
    + destruct (Nat.eqb_spec w 1); [assumption|discriminate].
    + destruct (Nat.eqb_spec (List.length l) w); [|discriminate]; split; [congruence|eauto].
  - intros h g j Hh Hj; rewrite (judge1_length F constr h g j Hj); exact Hh.
  - intros h Hh; apply shift1_length; exact Hh.
  - apply repeat_length.
  - intros h i e g Hh Hg; unfold guess1 in Hg; destruct (locate h); [|discriminate]; cbn [bind] in Hg; exact (guess_path_length _ _ _ _ _ _ _ _ _ _ _ _ _ _ Hg).
Qed.
Print Assumptions C69_shape.

Theorem C69_shape_two :
  forall (F : Type) (O : rops F) (inv : nat -> mat F -> res (mat F)) (ref alt0 alt1 dbl : regime F) (gy gu : nd F)
    (constr : list (vec F) -> res (list (bool * bool))) (ex : exog_index) (shocks : shock_array F) (init : option (vec F)) (periods : option nat) (max_iter : nat) (restrained : bool)
    (rows : list (vec F)) (warns : list bool) (out : list (list F)),
  occbin_two F O inv ref alt0 alt1 dbl gy gu constr ex shocks init periods max_iter restrained = Ok (rows, warns, out) ->
  let p := match periods with Some (S m) => S m | _ => List.length (shock_rows F shocks) end in
  List.length rows = p /\
  out = shock_rows F shocks ++ repeat (repeat (r0 O) (shock_width F shocks)) (p - List.length (shock_rows F shocks)) /\
  List.length (shock_rows F shocks) <= p /\ (1 <= p -> 1 <= List.length (shock_rows F shocks) /\ 1 <= max_iter) /\
  match ex with OneShock _ => shock_width F shocks = 1 | Shocks l => shock_width F shocks = List.length l /\ exists w rs, shocks = Rows F w rs end.
Proof.
  intros F O inv ref alt0 alt1 dbl gy gu constr ex shocks init periods max_iter restrained rows warns out H p.
  unfold occbin_two in H; destruct (check_shocks F ex shocks) eqn:Ck; [|discriminate]; cbn [bind] in H.
  change (number_of_periods F periods shocks) with p in H.
  destruct (rule_matrix F O (g_index F ref) gy); [|discriminate]; cbn [bind] in H.
  destruct (shock_matrix F (g_index F ref) gu) as [ku|]; [|discriminate]; cbn [bind] in H.
  destruct (partition F O (g_index F ref) _ _); [|discriminate]; cbn [bind] in H.
  destruct (partition F O (g_index F alt0) _ _); [|discriminate]; cbn [bind] in H.
  destruct (partition F O (g_index F alt1) _ _); [|discriminate]; cbn [bind] in H.
  destruct (partition F O (g_index F dbl) _ _); [|discriminate]; cbn [bind] in H.
  apply (solve_spec F (list (bool * bool)) _ _ _ (fun h => List.length h = S p)) in H.
  - destruct H as (L & _ & S & Le & N & _); split; [exact L|]; split; [exact S|]; split; [exact Le|]; split; [exact N|].
    destruct ex as [i|l], shocks as [f|w rs]; cbn in Ck |- *; try reflexivity; try discriminate.
    + destruct (Nat.eqb_spec w 1); [assumption|discriminate].
    + destruct (Nat.eqb_spec (List.length l) w); [|discriminate]; split; [congruence|eauto].
  - intros h g j Hh Hj; rewrite (judge2_length F restrained constr h g j Hj); exact Hh.
  - intros h Hh; apply shift2_length; exact Hh.
  - apply repeat_length.
  - intros h i e g Hh Hg; unfold guess2 in Hg; destruct (locate (map fst h)); [|discriminate]; destruct (locate (map snd h)); [|discriminate]; cbn [bind] in Hg; exact (guess_path_length _ _ _ _ _ _ _ _ _ _ _ _ _ _ Hg).
Qed.
Print Assumptions C69_shape_two.

(** More shocks than periods are an error, not a simulation cut short. *)
Theorem C69_refused :
  forall (F : Type) (O : rops F) (inv : nat -> mat F -> res (mat F)) (ref alt : regime F) (gy gu : nd F)
    (constr : list (vec F) -> res (list (bool * bool))) (ex : exog_index) (shocks : shock_array F) (init : option (vec F)) (m : nat) (max_iter : nat),
  S m < List.length (shock_rows F shocks) \/ List.length (shock_rows F shocks) = 0 \/ max_iter = 0 ->
  exists e, occbin_one F O inv ref alt gy gu constr ex shocks init (Some (S m)) max_iter = Err e.
Proof.
  intros F O inv ref alt gy gu constr ex shocks init m max_iter H.
  destruct (occbin_one F O inv ref alt gy gu constr ex shocks init (Some (S m)) max_iter) as [[[rows warns] out]|e] eqn:E; [exfalso|eauto].
  apply C69_shape in E; cbv zeta in E; destruct E as (_ & _ & L & N & _); specialize (N ltac:(lia)); lia.
Qed.
Print Assumptions C69_refused.
Theorem C69_refused_two :
  forall (F : Type) (O : rops F) (inv : nat -> mat F -> res (mat F)) (ref alt0 alt1 dbl : regime F) (gy gu : nd F)
    (constr : list (vec F) -> res (list (bool * bool))) (ex : exog_index) (shocks : shock_array F) (init : option (vec F)) (m : nat) (max_iter : nat) (restrained : bool),
  S m < List.length (shock_rows F shocks) \/ List.length (shock_rows F shocks) = 0 \/ max_iter = 0 ->
  exists e, occbin_two F O inv ref alt0 alt1 dbl gy gu constr ex shocks init (Some (S m)) max_iter restrained = Err e.
Proof.
  intros F O inv ref alt0 alt1 dbl gy gu constr ex shocks init m max_iter restrained H.
  destruct (occbin_two F O inv ref alt0 alt1 dbl gy gu constr ex shocks init (Some (S m)) max_iter restrained) as [[[rows warns] out]|e] eqn:E; [exfalso|eauto].
  apply C69_shape_two in E; cbv zeta in E; destruct E as (_ & _ & L & N & _); specialize (N ltac:(lia)); lia.
Qed.
Print Assumptions C69_refused_two.
Example C69_nonvacuous :
  (exists e, occbin_one Z ZO inv2 (Regime Z xi jac (vzero Z ZO)) (Regime Z xi jac (sD Z sys_alt)) (M2 2 0 (fun _ _ => 0%Z)) (V1 2 (fun _ => 1%Z))
      zero_binds (OneShock 0) (Flat Z [1; 2; 3]%Z) None (Some 2) 20 = Err e) /\
  occbin_one Z ZO inv2 (Regime Z xi jac (vzero Z ZO)) (Regime Z xi jac (sD Z sys_alt)) (M2 2 0 (fun _ _ => 0%Z)) (V1 2 (fun _ => 1%Z))
      zero_binds (Shocks [0]) (Flat Z [1; 2; 3]%Z) None None 20 = Err ValueErr.
Proof. split; [eexists|]; vm_compute; reflexivity. Qed.
