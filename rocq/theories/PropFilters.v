(** Filters: properties C47 and C48. *)
From Verif Require Import Base Semantics Nd NdProofs NdInst SimSpec Sim SimProofs3 Mat MatProofs MomentsSpec Moments
  MomentsProofs MomentsExample FiltersSpec Filters FiltersProofs FiltersProofs2.
From Coq Require Import ZArith QArith Qcanon Ring Permutation.
Local Open Scope string_scope.
Local Open Scope list_scope.
Local Open Scope nat_scope.

(** ** C47: observed series are matched to variables by label *)

(** For labels that are accepted, each variable reads the column with its name, whatever
    the data, exactly when column [j] has the name of variable [i] whenever column [i] has
    the name of variable [j]. *)
Theorem C47_partial :
  forall (F : Type) (O : rops F) (obs labels : list string) (r : nat),
  r0 O <> r1 O -> NoDup obs -> List.length labels = List.length obs -> (forall x, In x labels -> In x obs) -> 0 < r ->
  (forall data, exists kept, filter_data F obs (Frame (map Name labels) r data) = Ok (M2 r (List.length obs) kept)) /\
  ((forall data kept, filter_data F obs (Frame (map Name labels) r data) = Ok (M2 r (List.length obs) kept) -> by_label F labels obs r data kept) <->
   (forall i j, carries labels obs i j -> carries labels obs j i)).
Proof.
  intros F O obs labels r H01 Hn L H Hr; split; [intros data; destruct (frame_kept F obs labels r data Hn L H) as (kept & E & _); exists kept; exact E|].
  split.
  - intros A i j C.
    assert (Hj : j < List.length obs) by (destruct C as (z & _ & B); apply nth_error_Some; rewrite B; discriminate).
    destruct (nth_error labels j) as [w|] eqn:Ew; [|apply nth_error_None in Ew; lia].
    destruct (In_nth_error obs w (H w (nth_error_In _ _ Ew))) as (i' & Ei').
    assert (C' : carries labels obs j i') by (exists w; split; assumption).
    set (data := fun (t k : nat) => if k =? i then r1 O else r0 O).
    destruct (frame_kept F obs labels r data Hn L H) as (kept & E & K).
    pose proof (A data kept E i j C 0 Hr) as E1; rewrite (K 0 i' j C') in E1; unfold data in E1; rewrite Nat.eqb_refl in E1.
    destruct (Nat.eqb_spec i' i) as [->|]; [exact C'|contradiction].
  - intros S data kept E i j C t Ht; destruct (frame_kept F obs labels r data Hn L H) as (kept' & E' & K).
    rewrite E' in E; injection E as <-; apply K, S, C.
Qed.
Print Assumptions C47_partial.

(** So it holds for columns in the order of the variables, and for two columns that have
    changed places. *)
Theorem C47_in_order :
  forall (F : Type) (obs : list string) (r : nat) (data : mat F),
  NoDup obs -> exists kept, filter_data F obs (Frame (map Name obs) r data) = Ok (M2 r (List.length obs) kept) /\
  forall t j, j < List.length obs -> kept t j = data t j.
Proof.
  intros F obs r data Hn; destruct (frame_kept F obs obs r data Hn eq_refl ltac:(auto)) as (kept & E & K); exists kept; split; [exact E|].
  intros t j Hj; apply K; destruct (nth_error obs j) as [x|] eqn:Ex; [exists x; split; exact Ex|apply nth_error_None in Ex; lia].
Qed.
Print Assumptions C47_in_order.

(** Three columns that have moved on by one place are read wrongly. *)
Theorem C47_refuted :
  ~ (forall (obs labels : list string) (r : nat) (data : mat Z), NoDup obs -> Permutation labels obs ->
     exists kept, filter_data Z obs (Frame (map Name labels) r data) = Ok (M2 r (List.length obs) kept) /\ by_label Z labels obs r data kept).
Proof.
  intros H; assert (Hn : NoDup ["y"; "pi"; "r"]) by (repeat constructor; cbn; intuition discriminate).
  assert (Hp : Permutation ["pi"; "r"; "y"] ["y"; "pi"; "r"]) by (apply Permutation_sym, (Permutation_app_comm ["y"] ["pi"; "r"])).
  destruct (H ["y"; "pi"; "r"] ["pi"; "r"; "y"] 1 (fun _ k => Z.of_nat k) Hn Hp) as (kept & E & K).
  destruct (frame_kept Z ["y"; "pi"; "r"] ["pi"; "r"; "y"] 1 (fun _ k => Z.of_nat k) Hn eq_refl ltac:(cbn; intuition)) as (kept' & E' & K').
  rewrite E' in E; injection E as <-.
  assert (C : carries ["pi"; "r"; "y"] ["y"; "pi"; "r"] 2 0) by (exists "y"; split; reflexivity).
  assert (C' : carries ["pi"; "r"; "y"] ["y"; "pi"; "r"] 0 1) by (exists "pi"; split; reflexivity).
  pose proof (K 2 0 C 0 ltac:(lia)) as A; rewrite (K' 0 1 0 C') in A; discriminate.
Qed.
Print Assumptions C47_refuted.

(** A label may come twice, and then a variable without a column is filtered with the data
    of another. *)
Theorem C47_missing :
  ~ (forall (obs labels : list string) (r : nat) (data : mat Z) (a : nd Z), NoDup obs ->
     filter_data Z obs (Frame (map Name labels) r data) = Ok a -> forall x, In x obs -> In x labels).
Proof.
  intros H; assert (Hn : NoDup ["y"; "pi"]) by (repeat constructor; cbn; intuition discriminate).
  destruct (H ["y"; "pi"] ["y"; "y"] 1 (fun _ k => Z.of_nat k) (M2 1 2 (fun i j => Z.of_nat (nth j [0; 0] 0))) Hn eq_refl "pi" ltac:(cbn; auto)) as [E|[E|[]]]; discriminate.
Qed.
Print Assumptions C47_missing.

(** What is rejected: a number of series that is not that of the variables, whether there
    are labels or not; else a label that is not the name of one.  Arrays without labels
    are taken as they are, in the order of the variables. *)
Theorem C47_errors :
  forall (F : Type) (obs : list string) (r c : nat) (f : mat F) (labels : list label) (l : label) (n : nat) (v : vec F), NoDup obs ->
  (List.length labels <> List.length obs -> filter_data F obs (Frame labels r f) = Err ValueErr) /\
  (List.length labels = List.length obs ->
     (exists lb, In lb labels /\ forall x, lb = Name x -> ~ In x obs) -> filter_data F obs (Frame labels r f) = Err NameErr) /\
  (c <> List.length obs -> filter_data F obs (Array (M2 r c f)) = Err ValueErr) /\
  (c = List.length obs -> filter_data F obs (Array (M2 r c f)) = Ok (M2 r c f)) /\
  filter_data F obs (Array (V1 n v)) = Err IndexErr /\
  (List.length obs <> 1 -> filter_data F obs (Series l n v) = Err ValueErr) /\
  (forall x, obs = [x] -> filter_data F obs (Series (Name x) n v) = Ok (M2 n 1 (fun i j => v i))).
Proof.
  intros F obs r c f labels l n v Hn; split; [|split; [|split; [|split; [|split; [|split]]]]].
  - intros Hl; unfold filter_data, preprocess; destruct labels as [|lb labels]; [cbn [List.length] in *; destruct (Nat.eqb_spec 0 (List.length obs)); [contradiction|reflexivity]|].
    destruct (Nat.eqb_spec (List.length (lb :: labels)) (List.length obs)); [contradiction|reflexivity].
  - intros Hl (lb & Hi & Hb); unfold filter_data, preprocess; destruct labels as [|l0 labels]; [destruct Hi|].
    rewrite Hl, Nat.eqb_refl; cbn [negb].
    replace (forallb (observed obs) (l0 :: labels)) with false; [reflexivity|symmetry].
    apply Bool.not_true_is_false; intros E; rewrite forallb_forall in E; pose proof (E lb Hi) as X; destruct lb as [x|]; [|discriminate].
    cbn in X; apply existsb_exists in X as (z & Hz & Ez); apply String.eqb_eq in Ez; subst z; exact (Hb x eq_refl Hz).
  - intros Hc; cbn; destruct (Nat.eqb_spec c (List.length obs)); [contradiction|reflexivity].
  - intros ->; cbn; rewrite Nat.eqb_refl; reflexivity.
  - reflexivity.
  - intros Hl; unfold filter_data, preprocess; destruct (Nat.eqb_spec (List.length [l]) (List.length obs)) as [E|]; [cbn in E; congruence|reflexivity].
  - intros x ->; unfold filter_data, preprocess; cbn; rewrite String.eqb_refl; cbn; unfold loc1; cbn; rewrite String.eqb_refl; reflexivity.
Qed.
Print Assumptions C47_errors.

Example C47_nonvacuous :
  NoDup ["y"; "pi"; "r"] /\ (forall i j, carries ["y"; "r"; "pi"] ["y"; "pi"; "r"] i j -> carries ["y"; "r"; "pi"] ["y"; "pi"; "r"] j i) /\
  exists kept, filter_data Z ["y"; "pi"; "r"] (Frame (map Name ["y"; "r"; "pi"]) 1 (fun _ k => Z.of_nat k)) = Ok (M2 1 3 kept) /\
    kept 0 0 = 0%Z /\ kept 0 1 = 2%Z /\ kept 0 2 = 1%Z.
Proof.
  split; [repeat constructor; cbn; intuition discriminate|]; split.
  - intros i j (x & A & B); destruct i as [|[|[|[|i]]]]; try discriminate; destruct j as [|[|[|[|j]]]]; try discriminate;
    cbn in A, B; try (rewrite <- A in B; discriminate); eexists; split; reflexivity.
  - eexists; split; [reflexivity|]; repeat split; reflexivity.
Qed.

(** ** C48: the likelihood depends on the data *)

(** Full statement: the number is the Gaussian log-likelihood of the data, so that it
    changes when prediction errors change.  Proved: the number is the sum of the logarithms
    of the determinants of the covariances of the errors of the best linear predictions of
    the observations, the part of the log-likelihood (times -2) that does not depend on the
    data.  The rest, the errors weighted by the inverse covariances, is missing in the code. *)
Theorem C48_partial :
  forall (F : Type) (O : rops F) (potrf potri : nat -> mat F -> option (mat F)) (det : nat -> mat F -> F) (log : F -> F)
    (n r c : nat) (T Q P0 data : mat F) (x0 : nd F) (locs : list nat) (llk : F)
    (R : randoms F) (x e : nat -> nat -> rv R),
  is_ring O -> lapack_inverts F O potrf potri -> of_entries F det -> (forall i, In i locs -> i < n) ->
  lawful F O R -> state_space F O R n T P0 Q x e ->
  simple_kalman F O potrf potri det log (M2 r c data) x0 (M2 n n P0) (M2 n n T) (M2 n n Q) locs = Ok llk ->
  let p := List.length locs in
  let y t l := x t (nth l locs 0) in
  (exists yh, forall t l, t < r -> l < p -> best F O R p y t (y t l) (yh t l)) /\
  forall yh, (forall t l, t < r -> l < p -> best F O R p y t (y t l) (yh t l)) ->
  llk = Sum F O r (fun t => log (det p (fun a b => covariance R (error F O R (y t a) (yh t a)) (error F O R (y t b) (yh t b))))).
Proof.
  intros F O potrf potri det log n r c T Q P0 data x0 locs llk R x e RT HI HD HL LR HS E p y.
  exact (simple_ok F O RT potrf potri HI det HD log n T Q locs HL R LR P0 x e HS r c data x0 llk E).
Qed.
Print Assumptions C48_partial.

(** The number never depends on the data; the method for the log-likelihood returns no
    number; filtering a constructed filter fails. *)
Theorem C48_refuted :
  forall (F : Type) (O : rops F) (potrf potri : nat -> mat F -> option (mat F)) (det : nat -> mat F -> F) (log : F -> F)
    (lyap : nat -> mat F -> mat F -> res (mat F)) (symsolve : nat -> mat F -> vec F -> res (vec F)) (log2pi : F),
  (forall r c data data' x0 P0 T Q locs,
     simple_kalman F O potrf potri det log (M2 r c data) x0 P0 T Q locs = simple_kalman F O potrf potri det log (M2 r c data') x0 P0 T Q locs) /\
  (forall m data v, loglike F O det log lyap symsolve log2pi m data = Ok v -> v = None) /\
  (forall rest, filter F rest = Err AttrErr).
Proof.
  intros F O potrf potri det log lyap symsolve log2pi; split; [intros; apply simple_blind|]; split; [|reflexivity].
  intros m data v E; unfold loglike in E.
  apply bind_ok in E as (((T & R) & Z) & _ & E); apply bind_ok in E as (Q & _ & E); apply bind_ok in E as (P & _ & E).
  destruct (shape F T) as [|n s]; [discriminate|]; unfold kalman_loglikelihood in E; destruct data as [|?|r c f]; try discriminate.
  apply bind_ok in E as (a & _ & E); apply bind_ok in E as (b & _ & E); injection E as <-; reflexivity.
Qed.
Print Assumptions C48_refuted.

(** Which filters can be made: only the Kalman filter with the default start, from
    equations or a model that has them; and which models have a log-likelihood: those of one
    name. *)
Theorem C48_defined :
  forall (F : Type) (O : rops F) (build : list (string * string) -> res unit) (det : nat -> mat F -> F) (log : F -> F)
    (lyap : nat -> mat F -> mat F -> res (mat F)) (symsolve : nat -> mat F -> vec F -> res (vec F)) (log2pi : F),
  (forall m d exprs kind init f, filter_model F build m d exprs kind init = Ok f <->
     kind = "kalman" /\ init = "" /\
     (m = Ready (f_obs f) /\ f_warned f = negb (match exprs with [] => true | _ => false end) \/
      m = Bare /\ exprs <> [] /\ build exprs = Ok tt /\ f_obs f = map fst exprs /\ f_warned f = false) /\
     filter_data F (f_obs f) d = Ok (f_data f)) /\
  (forall m d exprs kind init, kind <> "kalman" -> filter_model F build m d exprs kind init = Err NotImplErr) /\
  (forall d init, filter_model F build Bare d [] "kalman" init = Err ValueErr) /\
  (forall m data, o_name m <> "herbst_schorfheide" -> loglike F O det log lyap symsolve log2pi m data = Err NotImplErr).
Proof.
  intros F O build det log lyap symsolve log2pi; split; [|split; [|split]].
  - intros m d exprs kind init f; unfold filter_model, kalman, model_filter; split.
    + destruct (String.eqb_spec kind "kalman") as [->|]; [|discriminate]; intros E.
      apply bind_ok in E as (g & Eg & E); destruct (String.eqb_spec init "") as [->|]; [|discriminate]; injection E as <-.
      apply bind_ok in Eg as ((ob & w) & Eo & Eg); apply bind_ok in Eg as (a & Ea & Eg); injection Eg as <-; cbn [fst snd f_obs f_warned f_data] in *.
      split; [reflexivity|]; split; [reflexivity|]; split; [|exact Ea]; destruct m as [obs|].
      * injection Eo as <- <-; left; split; [reflexivity|destruct exprs; reflexivity].
      * right; apply bind_ok in Eo as (o & Eo & E2); injection E2 as <- <-; unfold observed_model in Eo; destruct exprs as [|q exprs]; [discriminate|].
        apply bind_ok in Eo as ([] & Eb & Eo); injection Eo as <-; split; [reflexivity|]; split; [discriminate|]; auto.
    + intros (-> & -> & Hm & Hd); rewrite String.eqb_refl.
      destruct Hm as [(-> & Hw)|(-> & Hx & Hb & Ho & Hw)]; cbn [bind fst snd].
      * rewrite Hd; cbn [bind]; destruct f; cbn in *; rewrite Hw; destruct exprs; reflexivity.
      * unfold observed_model; destruct exprs as [|q exprs]; [contradiction|]; rewrite Hb; cbn [bind fst snd]; rewrite <- Ho, Hd; cbn [bind]; destruct f; cbn in *; subst; reflexivity.
  - intros m d exprs kind init Hk; unfold filter_model; destruct (String.eqb_spec kind "kalman"); [contradiction|reflexivity].
  - reflexivity.
  - intros m data Hm; unfold loglike, observed_solution; destruct (String.eqb_spec (o_name m) "herbst_schorfheide"); [contradiction|reflexivity].
Qed.
Print Assumptions C48_defined.

(** Two states, the first observed; unit variances. *)
Definition half : Qc := Q2Qc (1 # 2).
Definition kT : mat Qc := fun i j => match i, j with 0, 0 => half | 0, 1 => Q2Qc 1 | 1, 1 => half | _, _ => Q2Qc 0 end.
Definition kR : randoms Qc := space (fun _ => Q2Qc 1).
Definition ke (t i : nat) : rv kR := basis (2 + (t * 2 + i)).
Fixpoint kx (t i : nat) : rv kR :=
  match t with 0 => basis i | S t' => rv_plus kR (comb kR 2 (kT i) (kx t')) (ke t' i) end.
(** LAPACK on matrices with one entry. *)
Definition potrf1 (n : nat) (A : mat Qc) : option (mat Qc) := if (n =? 1) && negb (same (A 0 0) (Q2Qc 0)) then Some A else None.
Definition potri1 (n : nat) (C : mat Qc) : option (mat Qc) := Some (fun _ _ => Qcinv (C 0 0)).
Definition det1 (n : nat) (A : mat Qc) : Qc := if n =? 1 then A 0 0 else Q2Qc 1.

Lemma k_base i : forall j, nth j (basis i) (Q2Qc 0) = if j =? i then Q2Qc 1 else Q2Qc 0.
Proof. apply basis_nth. Qed.
Lemma k_cov x j : covariance kR x (basis j) = nth j x (Q2Qc 0).
Proof. unfold kR, space; cbn [covariance]; rewrite cov_basis; cbn; ring. Qed.
Lemma k_space : lawful Qc QO kR /\ state_space Qc QO kR 2 kT (mid Qc QO) (mid Qc QO) kx ke.
Proof.
  split; [apply space_lawful|]; constructor.
  - reflexivity.
  - intros i j Hi Hj; cbn [kx]; rewrite k_cov, k_base; unfold mid; rewrite Nat.eqb_sym; reflexivity.
  - intros t i j Hi Hj; unfold ke; rewrite k_cov, k_base; unfold mid.
    destruct (Nat.eqb_spec (2 + (t * 2 + j)) (2 + (t * 2 + i))), (Nat.eqb_spec i j); try lia; reflexivity.
  - intros t t' i j Ht Hi Hj; unfold ke; rewrite k_cov, k_base; destruct (Nat.eqb_spec (2 + (t' * 2 + j)) (2 + (t * 2 + i))); [lia|reflexivity].
  - intros t i j Hi Hj; unfold ke; cbn [kx]; rewrite k_cov, k_base; destruct (Nat.eqb_spec (2 + (t * 2 + j)) i); [lia|reflexivity].
Qed.
Lemma k_lapack : lapack_inverts Qc QO potrf1 potri1.
Proof.
  intros n A C V _ E1 E2; unfold potrf1 in E1; injection E2 as <-.
  destruct (Nat.eqb_spec n 1) as [->|]; [|discriminate]; destruct (same (A 0 0) (Q2Qc 0)) eqn:Es; [discriminate|]; injection E1 as <-.
  exists (fun _ _ => Qcinv (A 0 0)); split; [reflexivity|]; split; [|reflexivity].
  intros i j Hi Hj; replace i with 0 by lia; replace j with 0 by lia; cbn.
  apply same_neq in Es; rewrite Qcplus_0_l; apply Qcmult_inv_l, Es.
Qed.

Example C48_nonvacuous :
  lapack_inverts Qc QO potrf1 potri1 /\ of_entries Qc det1 /\ (lawful Qc QO kR /\ state_space Qc QO kR 2 kT (mid Qc QO) (mid Qc QO) kx ke) /\
  simple_kalman Qc QO potrf1 potri1 det1 (fun z => z) (M2 2 1 (fun _ _ => half)) (V1 2 (fun _ => Q2Qc 0)) (M2 2 2 (mid Qc QO)) (M2 2 2 kT) (M2 2 2 (mid Qc QO)) [0] = Ok (Q2Qc 3).
Proof.
  split; [exact k_lapack|]; split; [|split; [exact k_space|]].
  - intros n A B H; unfold det1; destruct (Nat.eqb_spec n 1) as [->|]; [apply H; lia|reflexivity].
  - assert (E : (match simple_kalman Qc QO potrf1 potri1 det1 (fun z => z) (M2 2 1 (fun _ _ => half)) (V1 2 (fun _ => Q2Qc 0)) (M2 2 2 (mid Qc QO)) (M2 2 2 kT) (M2 2 2 (mid Qc QO)) [0] with Ok v => same v (Q2Qc 3) | Err _ => false end) = true) by (vm_compute; reflexivity).
    destruct (simple_kalman _ _ _ _ _ _ _ _ _ _ _ _) as [v|]; [|discriminate]; apply same_eq in E; rewrite E; reflexivity.
Qed.

(** The solution of an observed model: the rows of the first-order solution at the states,
    and the first seven rows times those, whatever is observed. *)
Theorem C48_solution :
  forall (F : Type) (O : rops F) (m : omodel F) (n k e : nat) (gy gu : mat F),
    o_first F m = Ok (M2 n k gy, M2 n e gu) -> k = List.length (o_state F m) ->
    (forall T R Z, observed_solution F O m = Ok (T, R, Z) <->
       o_name m = "herbst_schorfheide" /\ (exists locs, o_locs F m = Ok locs) /\ 7 <= n /\ (forall i, In i (o_state F m) -> i < n) /\
       T = M2 k k (fun i j => gy (nth i (o_state F m) 0) j) /\ R = M2 k e (fun i j => gu (nth i (o_state F m) 0) j) /\
       Z = M2 7 k (fun i j => rsum F O k (fun l => rmul O (gy (nth i (seq 0 7) 0) l) (gy (nth l (o_state F m) 0) j)))).
Proof.
  intros F O m n k e gy gu Hf Hk T R Z; unfold observed_solution; rewrite Hf.
  destruct (String.eqb_spec (o_name m) "herbst_schorfheide") as [Hn|Hn]; cbn [negb]; [|split; [discriminate|intros (? & _); contradiction]].
  cbn [bind fst snd]; destruct (o_locs F m) as [locs|er]; cbn [bind]; [|split; [discriminate|intros (_ & (? & ?) & _); discriminate]].
  unfold take at 1.
  destruct (forallb (fun i => i <? n) (seq 0 7)) eqn:E7; cbn [bind].
  2:{ split; [discriminate|]; intros (_ & _ & H7 & _); exfalso.
      enough (forallb (fun i => i <? n) (seq 0 7) = true) by congruence.
      apply forallb_forall; intros i Hi; apply in_seq in Hi; apply Nat.ltb_lt; lia. }
  assert (H7 : 7 <= n) by (rewrite forallb_forall in E7; assert (6 < n); [apply Nat.ltb_lt, E7, in_seq; lia|lia]).
  unfold take; destruct (forallb (fun i => i <? n) (o_state F m)) eqn:Es; cbn [bind].
  2:{ split; [discriminate|]; intros (_ & _ & _ & Hs & _); exfalso.
      enough (forallb (fun i => i <? n) (o_state F m) = true) by congruence.
      apply forallb_forall; intros i Hi; apply Nat.ltb_lt; auto. }
  assert (Hs : forall i, In i (o_state F m) -> i < n) by (intros i Hi; rewrite forallb_forall in Es; apply Nat.ltb_lt; auto).
  rewrite <- Hk; unfold nmatmul; rewrite Nat.eqb_refl; cbn [bind List.length seq].
  split.
  - intros H; injection H as <- <- <-; repeat apply conj; eauto.
  - intros (_ & _ & _ & _ & -> & -> & ->); reflexivity.
Qed.
Print Assumptions C48_solution.

(** The documented system is s_t = T s_(t-1) + R u_t, y_t = Z s_t.  Without shocks the first
    observed variable is the first row of the solution times s_(t-1); Z s_t is not. *)
Definition doubling : omodel Qc :=
  OModel "herbst_schorfheide" [0] (M2 1 1 (fun _ _ => Q2Qc 1)) (Ok (M2 7 1 (fun _ _ => Q2Qc 2), M2 7 1 (fun _ _ => Q2Qc 1))) (Ok [0]).
Theorem C48_measurement_refuted :
  exists T R Z, observed_solution Qc QO doubling = Ok (M2 1 1 T, R, M2 7 1 Z) /\
    Qcmult (Z 0 0) (T 0 0) <> Q2Qc 2.
Proof.
  do 3 eexists; split; [vm_compute; reflexivity|].
  intros H; apply (f_equal (fun q => Qnum (this q))) in H; vm_compute in H; discriminate.
Qed.
Print Assumptions C48_measurement_refuted.
