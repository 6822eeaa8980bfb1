(** The second-order solution: properties C74 and C75. *)
From Verif Require Import Base Syntax Nd NdProofs NdInst Mat MatProofs SimSpec Indexing IndexingSpec IndexingProofs IndexingProofs2
  FirstOrder FirstOrderSpec FirstOrderProofs FirstOrderProofs2 FirstOrderProofs3 FirstOrderProofs4 FirstOrderProofs5 FirstOrderCurrent FirstOrderExample
  Gauss Sylvester SylvesterSpec SylvesterExample SecondOrder SecondOrderSpec SecondOrderProofs3 SecondOrderProofs4 SecondOrderProofs5 SecondOrderProofs6 PropFirst.
From Coq Require Import ZArith QArith Qcanon Permutation.
Local Open Scope string_scope.
Local Open Scope list_scope.
Local Open Scope nat_scope.

(** The Hessian of a model with [w] arguments as the array that the solver is given: the
    second derivatives of an equation are a row. *)
Definition hessian {F} (n w : nat) (H : nat -> nat -> nat -> F) : nd F := M2 n (w * w) (fun i p => H i (p / w) (p mod w)).

(** What the four arrays hold: one half of the second derivatives in two states, the second
    derivatives in a state and a shock, one half of those in two shocks, and one half of the
    second derivative in the scale of uncertainty. *)
Definition holds_second {F} (O : rops F) (g : rule F) (xx xu uu dl : nd F) (XX XU UU : nat -> nat -> nat -> F) (C : nat -> F) : Prop :=
  sized F xx (rn g) (rs g * rs g) /\ sized F xu (rn g) (rs g * rk g) /\ sized F uu (rn g) (rk g * rk g) /\ sized F dl (rn g) 1 /\
  (forall i a b, i < rn g -> a < rs g -> b < rs g -> rmul O (twice_one O) (entries F xx i (a * rs g + b)) = XX i a b) /\
  (forall i a l, i < rn g -> a < rs g -> l < rk g -> entries F xu i (a * rk g + l) = XU i a l) /\
  (forall i l m, i < rn g -> l < rk g -> m < rk g -> rmul O (twice_one O) (entries F uu i (l * rk g + m)) = UU i l m) /\
  (forall i, i < rn g -> rmul O (twice_one O) (entries F dl i 0) = C i).

(** The models whose sizes the second-order solver takes: two variables or more, one with a
    lead or more, and either two states and two shocks or more, or one state, two variables
    with a lead or more, and not as many shocks as variables with a lead. *)
Definition taken (L : list (list Z)) (k : nat) : Prop :=
  let number c := List.length (members_of L c) in
  1 < List.length L /\ 0 < number (forward L) /\
  ((1 < number (backward L) /\ 1 < k) \/
   (number (backward L) = 1 /\ 1 < number (forward L) /\ k <> number (forward L))).

Lemma taken_is L k : (forall i, i < List.length L -> at_k L i 0 = true) -> taken L k <->
  1 < List.length L /\ 0 < List.length (MX L) + List.length (PF L) /\
  ((1 < List.length (PB L) + List.length (MX L) /\ 1 < k) \/
   (List.length (PB L) + List.length (MX L) = 1 /\ 1 < List.length (MX L) + List.length (PF L) /\ (k = 1 \/ k <> List.length (MX L) + List.length (PF L)))).
Proof.
  intros H0; unfold taken; cbn zeta.
  rewrite (Permutation_length (backward_perm L k H0)), (Permutation_length (forward_perm L k H0)), !app_length.
  split; intros (A & B & C); (split; [exact A|]; split; [exact B|]); lia.
Qed.

Section Second.
  Variable F : Type.
  Variable O : rops F.
  Variable finv : F -> F.
  Hypothesis FT : is_field O finv.
  Let FT' : field_theory (r0 O) (r1 O) (radd O) (rmul O) (rsub O) (ropp O) (rdiv O) finv eq := FT.
  Add Field Fsecond : FT'.
  Let RT : is_ring O := F_R FT'.
  Lemma twice_half x : twice_one O <> r0 O -> rmul O (twice_one O) (rdiv O x (SecondOrder.two F O)) = x.
  Proof. intros H; unfold SecondOrder.two; change (radd O (r1 O) (r1 O)) with (twice_one O); unfold twice_one in *; field; exact H. Qed.
  Lemma cell a b r c : a < r -> b < c -> a * c + b < r * c.
  Proof. intros Ha Hb; nia. Qed.
End Second.

(** ** C74: the second-order solution solves the model to second order *)

(** Full statement: for every model, decision rule, Jacobian, Hessian and covariance matrix,
    and for every outcome of the numerical routines that keeps their promises, the arrays
    that are returned are the second derivatives of a decision rule that makes the second
    derivatives of every equation vanish, in any two directions and, expected over
    tomorrow's shocks, in the scale of uncertainty.  Proved for models all of whose variables
    appear in the current period. *)
Theorem C74_partial :
  forall (F : Type) (O : rops F) (finv : F -> F) (eqb : F -> F -> bool)
    (qz : nat -> mat F -> mat F -> res (mat F * mat F * mat F * mat F)) (solve : nat -> nat -> mat F -> mat F -> res (mat F)) (nan : F)
    (lls : list (string * list Z)) (X : indexes) (J : mat F) (H : nat -> nat -> nat -> F) (V : mat F) (g : rule F) (xx xu uu dl : nd F),
  is_field O finv -> twice_one O <> r0 O -> (forall x y, eqb x y = true <-> x = y) ->
  real_schur_routine F O qz -> linear_routine F O solve -> fails_when_singular F O solve -> refuses_singular F O solve ->
  NoDup (map fst lls) -> in_range (map snd lls) -> (forall i, i < List.length lls -> at_k (map snd lls) i 0 = true) ->
  let L := map snd lls in
  about F L g -> proper g -> index_manager lls (rk g) = Ok X ->
  let w := List.length (timed_vars L) + rk g in
  (forall i c d, i < List.length L -> c < w -> d < w -> H i c d = H i d c) ->
  (forall l m, l < rk g -> m < rk g -> V l m = V m l) ->
  solve_second_order F O eqb qz solve nan X (squeeze F (M2 (rn g) (rs g) (ry g))) (squeeze F (M2 (rn g) (rk g) (ru g)))
    (M2 (List.length L) w J) (hessian (List.length L) w H) (M2 (rk g) (rk g) V) = Ok (xx, xu, uu, dl) ->
  exists XX XU UU C, holds_second O g xx xu uu dl XX XU UU C /\
    solves_second F O L J H g XX XU UU /\ solves_uncertainty F O L J H g UU V C.
Proof.
  intros F O finv eqb qz solve nan lls X J H V g xx xu uu dl FT Two Heq Hq Hs He Hu Hn Hr H0 L Hg Pg HX w Hsym Vsym Hres.
  rewrite (index_manager_array lls (rk g) Hn Hr) in HX; injection HX as <-; fold L in H0, Hres; rewrite <- (map_length snd lls) in H0; fold L in H0.
  assert (Hpos : 0 < rn g /\ 0 < rs g /\ 0 < rk g) by (destruct Pg as (_ & _ & _ & _ & P); exact P); destruct Hpos as (P1 & P2 & P3).
  pose proof (rn_is F L g Hg) as En; pose proof (rs_is F L (rk g) H0 g Hg) as Es; unfold SecondOrderProofs3.nt in Es; unfold SecondOrderProofs3.n in En.
  rewrite En, Es in Hres.
  change (solve_second_order F O eqb qz solve nan (array L (rk g)) (gy_ F L g) (gu_ F L (rk g) g) (jac F L (rk g) J) (hes F L (rk g) H) (cov F (rk g) V) = Ok (xx, xu, uu, dl)) in Hres.
  pose proof (second_sizes F O (F_R FT) eqb qz solve nan Heq Hq Hs He Hu L (rk g) H0 J H V g eq_refl ltac:(rewrite <- Es; exact P2) P3 _ ltac:(rewrite <- En; exact P1) Hres) as (S1 & S2 & S3).
  pose proof (second_spec F O (F_R FT) eqb qz solve nan Heq Hq Hs He Hu L (rk g) H0 J H V g Hg eq_refl ltac:(rewrite <- Es; exact P2) P3 Hsym Vsym S1 S2 S3) as G.
  rewrite Hres in G; destruct G as (XX & XU & UU & C & (Vxx & Vxu & Vuu & Vdl) & G1 & G2).
  exists (cube F (rs g) XX), (cube F (rk g) XU), (cube F (rk g) UU), (fun i => C i 0).
  apply isV_sized in Vxx as [Sxx Exx], Vxu as [Sxu Exu], Vuu as [Suu Euu], Vdl as [Sdl Edl].
  rewrite <- En, <- Es in *.
  split; [|split; assumption].
  unfold holds_second; repeat (split; [assumption|]).
  split; [|split; [|split]].
  - intros i a b Hi Ha Hb; rewrite Exx by (try exact Hi; apply cell; assumption); apply (twice_half F O finv FT), Two.
  - intros i a l Hi Ha Hb; rewrite Exu by (try exact Hi; apply cell; assumption); reflexivity.
  - intros i a b Hi Ha Hb; rewrite Euu by (try exact Hi; apply cell; assumption); apply (twice_half F O finv FT), Two.
  - intros i Hi; rewrite Edl by (try exact Hi; lia); apply (twice_half F O finv FT), Two.
Qed.
Print Assumptions C74_partial.

(** From the Jacobian and the Hessian to the rule: first order, then second order, for every
    model that is solved. *)
Theorem C74_chain_partial :
  forall (F : Type) (O : rops F) (finv : F -> F) (le : F -> F -> Prop) (ltb eqb : F -> F -> bool)
    (qr : nat -> nat -> mat F -> res (mat F * mat F)) (rank : nat -> nat -> mat F -> nat) (ordqz : nat -> mat F -> mat F -> res (schur F))
    (inv : nat -> mat F -> res (mat F)) (qz : nat -> mat F -> mat F -> res (mat F * mat F * mat F * mat F))
    (solve : nat -> nat -> mat F -> mat F -> res (mat F)) (nan : F)
    (lls : list (string * list Z)) (k : nat) (X : indexes) (J : mat F) (H : nat -> nat -> nat -> F) (V : mat F) (s : state F) (gy gu xx xu uu dl : nd F),
  is_field O finv -> is_ordered O le -> (forall x y, ltb x y = false <-> le y x) -> twice_one O <> r0 O -> (forall x y, eqb x y = true <-> x = y) ->
  qr_routine F O qr -> schur_routine F O le ordqz -> inverse_routine F O inv ->
  real_schur_routine F O qz -> linear_routine F O solve -> fails_when_singular F O solve -> refuses_singular F O solve ->
  NoDup (map fst lls) -> in_range (map snd lls) -> index_manager lls k = Ok X ->
  let L := map snd lls in
  let w := List.length (timed_vars L) + k in
  (forall i c d, i < List.length L -> c < w -> d < w -> H i c d = H i d c) ->
  (forall l m, l < k -> m < k -> V l m = V m l) ->
  state_space F O ltb qr rank ordqz X (M2 (List.length L) w J) = Ok s ->
  solve_first_order F O inv solve X s = Ok (gy, gu) ->
  solve_second_order F O eqb qz solve nan X gy gu (M2 (List.length L) w J) (hessian (List.length L) w H) (M2 k k V) = Ok (xx, xu, uu, dl) ->
  exists g XX XU UU C, about F L g /\ proper g /\ rk g = k /\
    gy = squeeze F (M2 (rn g) (rs g) (ry g)) /\ gu = squeeze F (M2 (rn g) (rk g) (ru g)) /\
    ((exists e, In e (eigen s) /\ beyond_one F O le e) \/ not_complex F O (last (eigen s) Nan) -> solves_model F O L J g) /\
    holds_second O g xx xu uu dl XX XU UU C /\
    solves_second F O L J H g XX XU UU /\ solves_uncertainty F O L J H g UU V C.
Proof.
  intros F O finv le ltb eqb qr rank ordqz inv qz solve nan lls k X J H V s gy gu xx xu uu dl FT OR Hl Two Heq Hqr Hqz Hinv Hq Hs He Hu Hn Hr HX L w Hsym Vsym Es Hg H2.
  destruct (returned_rule F O finv le ltb qr rank ordqz inv solve lls k X J s gy gu FT OR Hl Hqr Hqz Hinv Hs Hn Hr HX Es Hg) as (g & A & P & <- & E1 & E2 & G & H0).
  subst gy gu.
  destruct (C74_partial F O finv eqb qz solve nan lls X J H V g xx xu uu dl FT Two Heq Hq Hs He Hu Hn Hr H0 A P HX Hsym Vsym H2) as (XX & XU & UU & C & HH & S2 & SC).
  exists g, XX, XU, UU, C; repeat (split; [assumption || reflexivity|]); assumption.
Qed.
Print Assumptions C74_chain_partial.

(** ** C75: a second-order solution is returned for every model *)

(** Full statement: for every model with a first-order solution, the second-order solution is
    returned unless a numerical routine fails.  Proved for the models whose sizes are
    [taken]; [C75_needed] shows that no other model is ever solved. *)
Theorem C75_partial :
  forall (F : Type) (O : rops F) (eqb : F -> F -> bool)
    (qz : nat -> mat F -> mat F -> res (mat F * mat F * mat F * mat F)) (solve : nat -> nat -> mat F -> mat F -> res (mat F)) (nan : F)
    (lls : list (string * list Z)) (X : indexes) (J : mat F) (H : nat -> nat -> nat -> F) (V : mat F) (g : rule F) (e : exn),
  is_ring O -> (forall x y, eqb x y = true <-> x = y) ->
  real_schur_routine F O qz -> linear_routine F O solve -> fails_when_singular F O solve -> refuses_singular F O solve ->
  NoDup (map fst lls) -> in_range (map snd lls) -> (forall i, i < List.length lls -> at_k (map snd lls) i 0 = true) ->
  let L := map snd lls in
  about F L g -> proper g -> index_manager lls (rk g) = Ok X ->
  let w := List.length (timed_vars L) + rk g in
  (forall i c d, i < List.length L -> c < w -> d < w -> H i c d = H i d c) ->
  (forall l m, l < rk g -> m < rk g -> V l m = V m l) ->
  taken L (rk g) ->
  solve_second_order F O eqb qz solve nan X (squeeze F (M2 (rn g) (rs g) (ry g))) (squeeze F (M2 (rn g) (rk g) (ru g)))
    (M2 (List.length L) w J) (hessian (List.length L) w H) (M2 (rk g) (rk g) V) = Err e ->
  (exists n A B, qz n A B = Err e) \/ (exists n m A B, solve n m A B = Err e).
Proof.
  intros F O eqb qz solve nan lls X J H V g e RT Heq Hq Hs He Hu Hn Hr H0 L Hg Pg HX w Hsym Vsym Tk Hres.
  rewrite (index_manager_array lls (rk g) Hn Hr) in HX; injection HX as <-; fold L in H0, Hres; rewrite <- (map_length snd lls) in H0; fold L in H0.
  assert (Hpos : 0 < rn g /\ 0 < rs g /\ 0 < rk g) by (destruct Pg as (_ & _ & _ & _ & P); exact P); destruct Hpos as (P1 & P2 & P3).
  pose proof (rn_is F L g Hg) as En; pose proof (rs_is F L (rk g) H0 g Hg) as Es; unfold SecondOrderProofs3.nt in Es; unfold SecondOrderProofs3.n in En.
  rewrite En, Es in Hres.
  change (solve_second_order F O eqb qz solve nan (array L (rk g)) (gy_ F L g) (gu_ F L (rk g) g) (jac F L (rk g) J) (hes F L (rk g) H) (cov F (rk g) V) = Err e) in Hres.
  apply (taken_is L (rk g) H0) in Tk as (S1 & S2 & S3).
  pose proof (second_spec F O RT eqb qz solve nan Heq Hq Hs He Hu L (rk g) H0 J H V g Hg eq_refl ltac:(rewrite <- Es; exact P2) P3 Hsym Vsym S1 S2 S3) as G.
  rewrite Hres in G; exact G.
Qed.
Print Assumptions C75_partial.

(** No other model is solved, whatever the routines return. *)
Theorem C75_needed :
  forall (F : Type) (O : rops F) (eqb : F -> F -> bool)
    (qz : nat -> mat F -> mat F -> res (mat F * mat F * mat F * mat F)) (solve : nat -> nat -> mat F -> mat F -> res (mat F)) (nan : F)
    (lls : list (string * list Z)) (X : indexes) (J : mat F) (H : nat -> nat -> nat -> F) (V : mat F) (g : rule F) r,
  is_ring O -> (forall x y, eqb x y = true <-> x = y) ->
  real_schur_routine F O qz -> linear_routine F O solve -> fails_when_singular F O solve -> refuses_singular F O solve ->
  NoDup (map fst lls) -> in_range (map snd lls) -> (forall i, i < List.length lls -> at_k (map snd lls) i 0 = true) ->
  let L := map snd lls in
  about F L g -> proper g -> index_manager lls (rk g) = Ok X ->
  let w := List.length (timed_vars L) + rk g in
  solve_second_order F O eqb qz solve nan X (squeeze F (M2 (rn g) (rs g) (ry g))) (squeeze F (M2 (rn g) (rk g) (ru g)))
    (M2 (List.length L) w J) (hessian (List.length L) w H) (M2 (rk g) (rk g) V) = Ok r ->
  taken L (rk g).
Proof.
  intros F O eqb qz solve nan lls X J H V g r RT Heq Hq Hs He Hu Hn Hr H0 L Hg Pg HX w Hres.
  rewrite (index_manager_array lls (rk g) Hn Hr) in HX; injection HX as <-; fold L in H0, Hres; rewrite <- (map_length snd lls) in H0; fold L in H0.
  assert (Hpos : 0 < rn g /\ 0 < rs g /\ 0 < rk g) by (destruct Pg as (_ & _ & _ & _ & P); exact P); destruct Hpos as (P1 & P2 & P3).
  pose proof (rn_is F L g Hg) as En; pose proof (rs_is F L (rk g) H0 g Hg) as Es; unfold SecondOrderProofs3.nt in Es; unfold SecondOrderProofs3.n in En.
  rewrite En, Es in Hres.
  change (solve_second_order F O eqb qz solve nan (array L (rk g)) (gy_ F L g) (gu_ F L (rk g) g) (jac F L (rk g) J) (hes F L (rk g) H) (cov F (rk g) V) = Ok r) in Hres.
  apply (taken_is L (rk g) H0).
  exact (second_sizes F O RT eqb qz solve nan Heq Hq Hs He Hu L (rk g) H0 J H V g eq_refl ltac:(rewrite <- Es; exact P2) P3 r ltac:(rewrite <- En; exact P1) Hres).
Qed.
Print Assumptions C75_needed.

(** ** Concrete models *)

(** The model of [C40_nonvacuous] with a shock of its own for y and some curvature: its first
    equation has - x(-1)^2 - x(-1) e, its second y(+1)^2 + x f and its third - x y. *)
Definition xyz2_J : table :=
  [[q (-1) 2; z0; z1; z0; z0; z0; q (-1) 1; z0]; [z0; q 3 2; z0; q (-11) 4; z0; z1; z0; q (-1) 1]; [z0; z0; q (-1) 1; q (-1) 1; z1; z0; z0; z0]].
(** Second derivatives, given once for each pair of arguments. *)
Definition sparse (l : list (nat * nat * nat * Qc)) (i c d : nat) : Qc :=
  match find (fun e => let '(j, a, b, _) := e in (i =? j) && (((c =? a) && (d =? b)) || ((c =? b) && (d =? a)))) l with Some (_, v) => v | None => z0 end.
Definition xyz2_H := sparse [(0, 0, 0, q (-2) 1); (0, 0, 6, q (-1) 1); (1, 5, 5, q 2 1); (1, 2, 7, z1); (2, 2, 3, q (-1) 1)].
Definition xyz2_V : table := [[z1; q 1 2]; [q 1 2; z1]].
Definition unit_table (n : nat) : table := map (fun i => map (fun j => if i =? j then z1 else z0) (seq 0 n)) (seq 0 n).
Definition xyz2_real := real_qz_with
  [([[z1; q (-1) 1; q (-1) 1]; [z0; z1; z0]; [z0; z0; q (-2) 1]], [[z0; z0; z0]; [z0; z0; z0]; [z0; z0; z1]], [[z0; z1; z0]; [z0; z0; z1]; [z1; z0; z0]], unit_table 3);
   ([[q 1 4; z0; z0; z0]; [z0; q 3 8; z0; z0]; [z0; z0; q 3 8; z0]; [z0; z0; z0; q 9 16]], unit_table 4, unit_table 4, unit_table 4)].
Lemma sparse_symmetric l i c d : sparse l i c d = sparse l i d c.
Proof.
  unfold sparse; induction l as [|[[[j a] b] v] l IH]; [reflexivity|]; cbn [find].
  rewrite (orb_comm ((c =? a) && (d =? b))), (andb_comm (c =? b)), (andb_comm (c =? a)).
  destruct ((i =? j) && _); [reflexivity|exact IH].
Qed.
Definition second_of {F} (O : rops F) ltb eqb qr rank ordqz inv qz solve nan (X : indexes) (J H V : nd F) :=
  do r <- solution O ltb qr rank ordqz inv solve X J;
  let '(s, (gy, gu)) := r in
  do a <- solve_second_order F O eqb qz solve nan X gy gu J H V; Ok (s, (gy, gu), a).
Definition xyz2_second := do X <- index_manager xyz 2;
  second_of QO qlt same xyz_qr rank_all xyz_qz xyz_inv xyz2_real qsolve z0 X (M2 3 8 (mx xyz2_J)) (hessian 3 8 xyz2_H) (M2 2 2 (mx xyz2_V)).
Example C74_nonvacuous :
  is_field QO Qcinv /\ is_ordered QO Qcle /\ (forall x y, qlt x y = false <-> Qcle y x) /\ twice_one QO <> r0 QO /\ (forall x y, same x y = true <-> x = y) /\
  qr_routine Qc QO xyz_qr /\ schur_routine Qc QO Qcle xyz_qz /\ inverse_routine Qc QO xyz_inv /\
  real_schur_routine Qc QO xyz2_real /\ linear_routine Qc QO qsolve /\ fails_when_singular Qc QO qsolve /\ refuses_singular Qc QO qsolve /\
  NoDup (map fst xyz) /\ in_range (map snd xyz) /\ (forall i, i < List.length xyz -> at_k (map snd xyz) i 0 = true) /\
  (forall i c d, xyz2_H i c d = xyz2_H i d c) /\ (forall l m, l < 2 -> m < 2 -> mx xyz2_V l m = mx xyz2_V m l) /\
  exists X s gy gu xx xu uu dl, index_manager xyz 2 = Ok X /\ List.length (timed_vars (map snd xyz)) + 2 = 8 /\
    state_space Qc QO qlt xyz_qr rank_all xyz_qz X (M2 3 8 (mx xyz2_J)) = Ok s /\
    (exists e, In e (eigen s) /\ beyond_one Qc QO Qcle e) /\
    solve_first_order Qc QO xyz_inv qsolve X s = Ok (gy, gu) /\
    solve_second_order Qc QO same xyz2_real qsolve z0 X gy gu (M2 3 8 (mx xyz2_J)) (hessian 3 8 xyz2_H) (M2 2 2 (mx xyz2_V)) = Ok (xx, xu, uu, dl) /\
    shown xx [[z1; q 3 16; q 3 16; q 81 368]; [z1; z0; z0; z0]; [z0; z0; z0; q 81 368]] = true /\
    shown xu [[z1; z0; q 3 4; q (-27) 92]; [z1; z0; z0; z0]; [z0; q 1 4; z0; q (-27) 92]] = true /\
    shown uu [[z0; z0; z0; q 9 92]; [z0; z0; z0; z0]; [z0; q 1 4; q 1 4; q 9 92]] = true /\
    shown dl [[q 55 92]; [z0]; [q 55 92]] = true.
Proof.
  split; [exact Q_field|]; split; [exact Q_ordered|]; split; [exact qlt_le|]; split; [exact Q_two|]; split; [exact same_iff|].
  split; [apply qr_with_ok|]; split; [apply qz_with_ok|]; split; [apply inv_with_ok|]; split; [apply real_qz_with_ok|].
  split; [exact qsolve_ok|]; split; [exact qsolve_err|]; split; [exact qsolve_refuses|].
  split; [repeat constructor; cbn [In map fst]; intuition discriminate|]; split; [repeat constructor; try discriminate; try lia|].
  split; [intros [|[|[|i]]] Hi; try reflexivity; cbn in Hi; lia|].
  split; [intros i c d; apply sparse_symmetric|]; split; [intros [|[|l]] [|[|m]] Hl Hm; try reflexivity; lia|].
  assert (E : match xyz2_second with
    | Ok (s, (gy, gu), (xx, xu, uu, dl)) =>
        match eigen s with [Fin a b; Fin c d; Fin e f] => same e (q 2 1) && same f z0 | _ => false end &&
        shown xx [[z1; q 3 16; q 3 16; q 81 368]; [z1; z0; z0; z0]; [z0; z0; z0; q 81 368]] &&
        shown xu [[z1; z0; q 3 4; q (-27) 92]; [z1; z0; z0; z0]; [z0; q 1 4; z0; q (-27) 92]] &&
        shown uu [[z0; z0; z0; q 9 92]; [z0; z0; z0; z0]; [z0; q 1 4; q 1 4; q 9 92]] &&
        shown dl [[q 55 92]; [z0]; [q 55 92]]
    | Err _ => false end = true) by (vm_compute; reflexivity).
  unfold xyz2_second in E; destruct (index_manager xyz 2) as [X|]; [|discriminate E]; cbn [bind] in E; unfold second_of, solution in E.
  destruct (state_space _ _ _ _ _ _ X _) as [s|] eqn:Es; [|discriminate E]; cbn [bind] in E.
  destruct (solve_first_order _ _ _ _ X s) as [[gy gu]|] eqn:Eg; [|discriminate E]; cbn [bind] in E.
  destruct (solve_second_order _ _ _ _ _ _ X _ _ _ _ _) as [[[[xx xu] uu] dl]|] eqn:E2; [|discriminate E]; cbn [bind] in E.
  do 4 (apply andb_true_iff in E as [E ?]).
  exists X, s, gy, gu, xx, xu, uu, dl; repeat (split; [assumption || reflexivity|]); split; [|repeat split; assumption].
  destruct (eigen s) as [|[a b| |] [|[c d| |] [|[e f| |] [|? ?]]]]; try discriminate E; apply andb_true_iff in E as [A B]; apply same_eq in A, B; subst.
  eexists; split; [right; right; left; reflexivity|left; apply qlt_true; vm_compute; reflexivity].
Qed.

(** The model of [C40_nonvacuous] has two states and one shock.  It has a first-order
    solution, no routine fails on it, and the second-order solver raises ValueError. *)
Definition xyz1_H := sparse [(0, 0, 0, q (-2) 1); (0, 0, 6, q (-1) 1); (1, 5, 5, q 2 1); (2, 2, 3, q (-1) 1)].
Theorem C75_refuted :
  ~ (forall (qz : nat -> mat Qc -> mat Qc -> res (mat Qc * mat Qc * mat Qc * mat Qc)) (solve : nat -> nat -> mat Qc -> mat Qc -> res (mat Qc)) (nan : Qc)
       (lls : list (string * list Z)) (X : indexes) (J : mat Qc) (H : nat -> nat -> nat -> Qc) (V : mat Qc) (g : rule Qc) (e : exn),
     real_schur_routine Qc QO qz -> linear_routine Qc QO solve -> fails_when_singular Qc QO solve -> refuses_singular Qc QO solve ->
     NoDup (map fst lls) -> in_range (map snd lls) -> (forall i, i < List.length lls -> at_k (map snd lls) i 0 = true) ->
     let L := map snd lls in
     about Qc L g -> proper g -> index_manager lls (rk g) = Ok X -> solves_model Qc QO L J g ->
     let w := List.length (timed_vars L) + rk g in
     (forall i c d, i < List.length L -> c < w -> d < w -> H i c d = H i d c) ->
     (forall l m, l < rk g -> m < rk g -> V l m = V m l) ->
     solve_second_order Qc QO same qz solve nan X (squeeze Qc (M2 (rn g) (rs g) (ry g))) (squeeze Qc (M2 (rn g) (rk g) (ru g)))
       (M2 (List.length L) w J) (hessian (List.length L) w H) (M2 (rk g) (rk g) V) = Err e ->
     (exists n A B, qz n A B = Err e) \/ (exists n m A B, solve n m A B = Err e)).
Proof.
  intros H.
  assert (E : match index_manager xyz 1 with Ok X =>
    match state_space Qc QO qlt xyz_qr rank_all xyz_qz X (M2 3 7 (mx xyz_J)) with Ok s =>
      match solve_first_order Qc QO xyz_inv qsolve X s with Ok (gy, gu) =>
        match eigen s with [Fin a b; Fin c d; Fin e f] => same e (q 2 1) && same f z0 | _ => false end &&
        match solve_second_order Qc QO same xyz2_real qsolve z0 X gy gu (M2 3 7 (mx xyz_J)) (hessian 3 7 xyz1_H) (M2 1 1 (mid Qc QO)) with Err ValueErr => true | _ => false end
      | Err _ => false end | Err _ => false end | Err _ => false end = true) by (vm_compute; reflexivity).
  destruct (index_manager xyz 1) as [X|] eqn:EX; [|discriminate E].
  destruct (state_space _ _ _ _ _ _ X _) as [s|] eqn:Es; [|discriminate E].
  destruct (solve_first_order _ _ _ _ X s) as [[gy gu]|] eqn:Eg; [|discriminate E].
  apply andb_true_iff in E as [Ee E].
  destruct (solve_second_order _ _ _ _ _ _ X _ _ _ _ _) as [?|[]] eqn:E2; try discriminate E; clear E.
  assert (N : NoDup (map fst xyz)) by (repeat constructor; cbn [In map fst]; intuition discriminate).
  assert (R : in_range (map snd xyz)) by (repeat constructor; try discriminate; try lia).
  assert (A0 : forall i, i < List.length xyz -> at_k (map snd xyz) i 0 = true) by (intros [|[|[|i]]] Hi; try reflexivity; cbn in Hi; lia).
  destruct (C40_partial Qc QO Qcinv Qcle qlt xyz_qr rank_all xyz_qz xyz_inv qsolve xyz 1 X (mx xyz_J) s gy gu Q_field Q_ordered qlt_le
    (qr_with_ok _) (qz_with_ok _) (inv_with_ok _) qsolve_ok N R EX Es) as (g & A & P & K & G1 & G2 & S); [|exact Eg|].
  { left; destruct (eigen s) as [|[a b| |] [|[c d| |] [|[e f| |] [|? ?]]]]; try discriminate Ee; apply andb_true_iff in Ee as [? ?].
    repeat match goal with G : same _ _ = true |- _ => apply same_eq in G end; subst.
    eexists; split; [right; right; left; reflexivity|left; apply qlt_true; vm_compute; reflexivity]. }
  subst gy gu; rewrite <- K in EX.
  destruct (H xyz2_real qsolve z0 xyz X (mx xyz_J) xyz1_H (mid Qc QO) g ValueErr (real_qz_with_ok _) qsolve_ok qsolve_err qsolve_refuses N R A0 A P EX S) as [(n & B & C & F)|(n & m & B & C & F)].
  - intros; apply sparse_symmetric.
  - rewrite K; intros [|l] [|m] Hl Hm; try lia; reflexivity.
  - rewrite K in *; exact E2.
  - unfold xyz2_real, real_qz_with in F; destruct (find _ _) as [[[[? ?] ?] ?]|]; discriminate F.
  - assert (NoV : forall n m (B C : mat Qc), qsolve n m B C <> Err ValueErr).
    { clear; induction n as [|n IH]; intros m B C; unfold qsolve; cbn [eliminate]; [discriminate|].
      destruct (find _ _) as [p|]; [|discriminate].
      match goal with |- bind (eliminate _ _ _ _ n m ?B' ?C') _ <> _ => specialize (IH m B' C'); unfold qsolve in IH; destruct (eliminate Qc QO Qcinv same n m B' C') as [|e0] end;
        cbn [bind]; [discriminate|intros G; injection G as ->; apply IH; reflexivity]. }
    exact (NoV _ _ _ _ F).
Qed.
Print Assumptions C75_refuted.

(** A model of one state: x = x(-1)/2 + e, y(+1) = 2 y - e, z(+1) = 3 z - e, with the same
    curvature in x, y(+1) and z. *)
Definition one_J : table := [[q (-1) 2; z1; z0; z0; z0; z0; q (-1) 1]; [z0; z0; q (-2) 1; z0; z1; z0; z1]; [z0; z0; z0; q (-3) 1; z0; z1; z1]].
Definition one_g : rule Qc := Rule 3 1 1 (mx [[q 1 2]; [z0]; [z0]]) (mx [[z1]; [q 1 2]; [q 1 3]]) [0; 1; 2] [0].
Example C75_nonvacuous :
  (taken (map snd xyz) 2 /\ ~ taken (map snd xyz) 1 /\ taken (map snd two) 1 /\ ~ taken (map snd two) 2) /\
  about Qc (map snd two) one_g /\ proper one_g /\
  exists X xx xu uu dl, index_manager two 1 = Ok X /\
    solve_second_order Qc QO same (real_qz_with []) qsolve z0 X (squeeze Qc (M2 3 1 (ry one_g))) (squeeze Qc (M2 3 1 (ru one_g)))
      (M2 3 7 (mx one_J)) (hessian 3 7 xyz1_H) (M2 1 1 (mid Qc QO)) = Ok (xx, xu, uu, dl) /\
    shown xx [[z1]; [z0]; [z0]] = true /\ shown xu [[z1]; [z0]; [z0]] = true /\
    shown uu [[z0]; [z0]; [q (-1) 18]] = true /\ shown dl [[z0]; [q 1 9]; [q (-1) 36]] = true.
Proof.
  split; [unfold taken; cbn; lia|]; split; [repeat split|].
  split; [split; [reflexivity|split; [reflexivity|split; [repeat constructor; intuition discriminate|split; [intros x [<-|[]]; cbn; lia|cbn; lia]]]]|].
  assert (E : match index_manager two 1 with Ok X =>
    match solve_second_order Qc QO same (real_qz_with []) qsolve z0 X (squeeze Qc (M2 3 1 (ry one_g))) (squeeze Qc (M2 3 1 (ru one_g)))
      (M2 3 7 (mx one_J)) (hessian 3 7 xyz1_H) (M2 1 1 (mid Qc QO)) with
    | Ok (xx, xu, uu, dl) => shown xx [[z1]; [z0]; [z0]] && shown xu [[z1]; [z0]; [z0]] && shown uu [[z0]; [z0]; [q (-1) 18]] && shown dl [[z0]; [q 1 9]; [q (-1) 36]]
    | Err _ => false end | Err _ => false end = true) by (vm_compute; reflexivity).
  destruct (index_manager two 1) as [X|]; [|discriminate E].
  destruct (solve_second_order _ _ _ _ _ _ X _ _ _ _ _) as [[[[xx xu] uu] dl]|] eqn:E2; [|discriminate E].
  do 3 (apply andb_true_iff in E as [E ?]).
  exists X, xx, xu, uu, dl; repeat split; try assumption; exact E2.
Qed.
