(** A model file with an exponential and a logarithm, solved over the real numbers: a case of
    C92_reals_partial and C93_reals_partial. *)
From Verif Require Import Base Syntax Lexer Parser Eval EvalSpec Semantics Factory FactorySpec Calib CalibSpec Indexing IndexingSpec DynFunc DynSpec DynProofs DynProofs2 Vars ExprList
  ModelState ModelStateSpec PropModel OutlineSpec PropDyn
  Nd Mat NdProofs SimSpec OrderProofs CalcSpec CalcProofs Linearize LinearizeSpec LinearizeProofs Steady SteadyValues SteadyValuesSpec
  FirstOrder FirstOrderSpec PropFirst Sylvester SylvesterSpec AccuracySpec PropAccuracy Gauss
  Pipeline PipelineSpec PipelineProofs PropPipeline Sim PathSim PathSimSpec PropPathSim RealSpec RealProofs PropReals PropRealsFile.
From Coq Require Import ZArith Reals Lra.
Local Open Scope string_scope.
Local Open Scope list_scope.
Local Open Scope R_scope.

(** ** The file *)
Definition rtext : string := "var x y; varexo e; parameters rho; rho = 0.5;
 model; x = exp(rho*log(x(-1)) + e); y = rho*y(+1) + e; end;
 shocks; var e = 1; end;".
Definition r_decimal (t : text) : option R := lookup (string_of_list_ascii t) [("0.5", rho); ("1", 1)].
(** Every offset of the file is written with a 1. *)
Definition r_trunc (v : R) : option Z := Some 1%Z.
Definition r_true (v : R) : bool := negb (is_zero v).
Definition r_text (t : text) : res (ast R) := Err GenericErr.
Definition e1 : ast R := g_eq.
Definition e2 : ast R := Bin BSub (Var "y") (Bin BAdd (Bin BMul (Var "rho") (PVar "y" 1)) (Var "e")).
Definition rendog : list string := ["x"; "y"].
Definition rstoch : list string := ["e"].
Definition rfile : res (modfile R) := parse_file R r_decimal r_trunc 0 (chars rtext).
Lemma rfile_plain f : rfile = Ok f -> OutlineSpec.named R "var" f = rendog /\ OutlineSpec.named R "varexo" f = rstoch /\ equations R f = [e1; e2] /\ plain_file R f.
Proof.
  assert (E : match rfile with Ok f => OutlineSpec.named R "var" f = rendog /\ OutlineSpec.named R "varexo" f = rstoch /\ equations R f = [e1; e2] /\
     names_of R f = ["x"; "y"; "e"; "rho"] | Err _ => False end) by (cbv -[rho IZR]; repeat apply conj; reflexivity).
  intros H; rewrite H in E; destruct E as (E1 & E2 & E3 & E4); split; [exact E1|]; split; [exact E2|]; split; [exact E3|].
  constructor; rewrite ?E1, ?E3, ?E4.
  - intros x y Hx Hy; cbn [In] in Hx, Hy; repeat (destruct Hx as [<-|Hx]); try contradiction; repeat (destruct Hy as [<-|Hy]); try contradiction; split; discriminate.
  - intros x [<-|[<-|[]]].
    + exists e1; split; [left; reflexivity|left; apply O_binl; constructor].
    + exists e2; split; [right; left; reflexivity|left; apply O_binl; constructor].
  - intros e x He Ho; cbn [In] in He; destruct He as [<-|[<-|[]]]; unfold e1, e2, g_eq in Ho; invert_tree; cbn; tauto.
  - intros e x k He Ho; cbn [In] in He; destruct He as [<-|[<-|[]]]; unfold e1, e2, g_eq in Ho; invert_tree; cbn; tauto.
  - reflexivity.
Qed.
Lemma r_readable : readable rendog rstoch [e1; e2] g_params.
Proof.
  split; [repeat constructor; cbn; intuition discriminate|].
  split; [intros x y Hx Hy; cbn [names app keys map fst In g_params rendog rstoch] in Hx, Hy; repeat (destruct Hx as [<-|Hx]); try contradiction; repeat (destruct Hy as [<-|Hy]); try contradiction; split; discriminate|].
  split; [|split].
  - split.
    + intros x Hx; exists 0%Z; cbn [In rendog] in Hx; destruct Hx as [<-|[<-|[]]].
      * exists e1; split; [left; reflexivity|apply P_binl; constructor].
      * exists e2; split; [right; left; reflexivity|apply P_binl; constructor].
    + intros x k e Hx He Hp; cbn [In] in He; destruct He as [<-|[<-|[]]]; unfold e1, e2, g_eq in Hp; invert_tree; lia.
  - repeat (apply Forall_cons || apply Forall_nil);
    (split; [split; [exact I|split; [cbn; tauto|cbn [functions g_eq e1 e2]; repeat apply conj; try exact I; try (cbn; tauto)]]|]);
    (split; [split; intros|split; intros x k H]; unfold e1, e2, g_eq in *; invert_tree; try (cbn; tauto); auto).
  - intros x [<-|[<-|[]]]; reflexivity.
Qed.
Definition r_sig : list (nat * Z) := [(0%nat, (-1)%Z); (0%nat, 0%Z); (1%nat, 0%Z); (1%nat, 1%Z)].
Lemma r_lls : set_lead_lags R rendog [e1; e2] = Ok [("x", [0%Z; (-1)%Z]); ("y", [0%Z; 1%Z])].
Proof. cbv -[rho]; reflexivity. Qed.
Lemma r_signature l : signature R rendog [e1; e2] l -> l = r_sig.
Proof.
  intros H; apply (signature_unique R rendog [e1; e2] l r_sig H).
  pose proof r_readable as (_ & _ & Rg & _); exact (signature_timed R rendog [e1; e2] _ Rg r_lls).
Qed.
(** The residuals at x(-1) = a, x = b, y = c, y(+1) = d, e = u. *)
Lemma r_residual e a b c d u v : In e [e1; e2] ->
  residual R real_ops rendog rstoch g_params r_sig e [a; b; c; d; u] v <->
  dynamic_func R real_ops e ["xm1"; "x"; "y"; "yp1"; "e"] g_params [a; b; c; d; u] = Ok v.
Proof.
  intros He; pose proof r_readable as (Nd & Nc & Rg & W & _); destruct (proj1 (Forall_forall _ _) W e He) as ((We & Wa & Wf) & Wd & Wo & _).
  symmetry; exact (dynamic_value R rendog rstoch g_params [[0%Z; (-1)%Z]; [0%Z; 1%Z]] eq_refl Nd Nc [a; b; c; d] [u] eq_refl real_ops eq_refl e v We Wa Wf Wd Wo).
Qed.
Lemma r_res1 a b c d u v : residual R real_ops rendog rstoch g_params r_sig e1 [a; b; c; d; u] v <-> 0 < a /\ v = b - growth a u.
Proof.
  rewrite r_residual by (left; reflexivity).
  assert (E : dynamic_func R real_ops e1 ["xm1"; "x"; "y"; "yp1"; "e"] g_params [a; b; c; d; u] = if is_pos a then Ok (b - growth a u) else Err GenericErr).
  { unfold growth; cbv -[rho is_pos Rminus Rmult Rplus exp ln]; destruct (is_pos a); reflexivity. }
  rewrite E; unfold is_pos; destruct (Rlt_dec 0 a); split; try discriminate.
  - intros H; injection H as <-; split; [assumption|reflexivity].
  - intros [_ ->]; reflexivity.
  - intros [H _]; contradiction.
Qed.
Lemma r_res2 a b c d u v : residual R real_ops rendog rstoch g_params r_sig e2 [a; b; c; d; u] v <-> v = c - (rho * d + u).
Proof.
  rewrite r_residual by (right; left; reflexivity).
  assert (E : dynamic_func R real_ops e2 ["xm1"; "x"; "y"; "yp1"; "e"] g_params [a; b; c; d; u] = Ok (c - (rho * d + u))) by (cbv -[rho Rminus Rmult Rplus]; reflexivity).
  rewrite E; split; [intros H; injection H as <-; reflexivity|intros ->; reflexivity].
Qed.

(** ** The derivatives *)
Definition first1 (a u : R) : list R := [- (rho / a * growth a u); 1; 0; 0; - growth a u].
Definition first2 : list R := [0; 0; 1; - rho; - (1)].
Definition second1 (a u : R) : list (list R) :=
  [[rho * (1 - rho) / (a * a) * growth a u; 0; 0; 0; - (rho / a * growth a u)]; [0; 0; 0; 0; 0]; [0; 0; 0; 0; 0]; [0; 0; 0; 0; 0]; [- (rho / a * growth a u); 0; 0; 0; - growth a u]].
Definition second2 : list (list R) := repeat (repeat 0 5) 5.
(** The two equations differ at x(-1) = 1 and zeros. *)
Definition probe : list R := [1; 0; 0; 0; 0].
Definition r_grad (f : list R -> res R) (x : list R) : res (list R) :=
  match x, f probe with
  | [a; _; _; _; u], Ok v => if is_zero v then Ok first2 else if is_pos a then Ok (first1 a u) else Err GenericErr
  | _, _ => Err GenericErr
  end.
Definition r_jacobian (g : list R -> res (list R)) (x : list R) : res (list (list R)) :=
  match x, g probe with
  | [a; _; _; _; u], Ok (v :: _) => if is_zero v then Ok second2 else if is_pos a then Ok (second1 a u) else Err GenericErr
  | _, _ => Err GenericErr
  end.
Lemma is_zero_true x : x = 0 -> is_zero x = true.
Proof. intros ->; unfold is_zero; destruct (Req_EM_T 0 0); [reflexivity|contradiction]. Qed.
Lemma is_zero_false x : x <> 0 -> is_zero x = false.
Proof. intros H; unfold is_zero; destruct (Req_EM_T x 0); [contradiction|reflexivity]. Qed.
Lemma growth_one : growth 1 0 = 1.
Proof. unfold growth; rewrite ln_1, Rmult_0_r, Rplus_0_r; apply exp_0. Qed.

Ltac five j := destruct j as [|[|[|[|[|j]]]]]; [| | | | |exfalso; lia].
Lemma first1_only (Q : list R -> R -> Prop) a b c d u j l :
  (forall a b c d u v, Q [a; b; c; d; u] v -> 0 < a /\ v = b - growth a u) -> partial R RO Rle Q [a; b; c; d; u] j l -> (j < 5)%nat -> 0 < a /\ nth_error (first1 a u) j = Some l.
Proof.
  intros Hr Hd Hj; assert (Ha : 0 < a).
  { pose proof Hd as Hd'; apply partial_real in Hd' as (F & A & _); apply around_zero in A; five j; cbn [bump radd RO] in A; apply Hr in A; lra. }
  split; [exact Ha|]; five j; cbn [nth_error first1]; f_equal; symmetry; (eapply only_partial; [| |exact Hd]; [intros h v Hv; cbn [bump radd RO] in Hv; apply Hr in Hv as [_ ->]; reflexivity|]); try apply derivable_pt_lim_const.
  - replace (- (rho / a * growth a u)) with (0 - rho / a * growth a u) by ring; apply (derivable_pt_lim_minus (fun _ => b) (fun h => growth (a + h) u)); [apply derivable_pt_lim_const|apply growth_first, Ha].
  - replace 1 with (0 + 1 - 0) by ring; apply (derivable_pt_lim_minus (fun h => b + h) (fun h => growth a u)); [|apply derivable_pt_lim_const].
    apply (derivable_pt_lim_plus (fun _ => b) (fun h => h)); [apply derivable_pt_lim_const|apply derivable_pt_lim_id].
  - replace (- growth a u) with (0 - growth a u) by ring; apply (derivable_pt_lim_minus (fun _ => b) (fun h => growth a (u + h))); [apply derivable_pt_lim_const|apply growth_second].
Qed.
Lemma first2_only (Q : list R -> R -> Prop) a b c d u j l :
  (forall a b c d u v, Q [a; b; c; d; u] v -> v = c - (rho * d + u)) -> partial R RO Rle Q [a; b; c; d; u] j l -> (j < 5)%nat -> nth_error first2 j = Some l.
Proof.
  assert (Lin : forall k m, derivable_pt_lim (fun h => k + m * h) 0 m).
  { intros k m; cut (derivable_pt_lim (fun h => k + m * h) 0 (0 + m * 1)); [replace (0 + m * 1) with m by ring; exact (fun H => H)|]; apply (derivable_pt_lim_plus (fun _ => k) (fun h => m * h)); [apply derivable_pt_lim_const|apply (derivable_pt_lim_scal (fun h => h)), derivable_pt_lim_id]. }
  intros Hr Hd Hj; five j; cbn [nth_error first2]; f_equal; symmetry; (eapply only_partial; [|apply (Lin (c - (rho * d + u)))|exact Hd]; intros h v Hv; cbn [bump radd RO] in Hv; apply Hr in Hv as ->; ring).
Qed.
Lemma second1_only (Q : list R -> R -> Prop) a b c d u i j l :
  (forall a b c d u v, Q [a; b; c; d; u] v -> 0 < a /\ nth_error (first1 a u) i = Some v) -> partial R RO Rle Q [a; b; c; d; u] j l -> (i < 5)%nat -> (j < 5)%nat ->
  0 < a /\ nth_error (nth i (second1 a u) []) j = Some l.
Proof.
  intros Hr Hd Hi Hj; assert (Ha : 0 < a).
  { pose proof Hd as Hd'; apply partial_real in Hd' as (F & A & _); apply around_zero in A; five j; cbn [bump radd RO] in A; apply Hr in A; lra. }
  split; [exact Ha|].
  assert (Inv : derivable_pt_lim (fun h => rho / (a + h)) 0 (- rho / (a * a))).
  { apply (shifted (fun x => rho / x)); replace (- rho / (a * a)) with (rho * - / (a * a)) by (field; lra); apply (derivable_pt_lim_scal Rinv), derive_inv; lra. }
  five i; five j; cbn [nth nth_error second1]; f_equal; symmetry;
    (eapply only_partial; [| |exact Hd]; [intros h v Hv; cbn [bump radd RO] in Hv; apply Hr in Hv as [_ Hv]; cbn [nth_error first1] in Hv; injection Hv as <-; reflexivity|]); try apply derivable_pt_lim_const.
  - replace (rho * (1 - rho) / (a * a) * growth a u) with (- (- rho / (a * a) * growth (a + 0) u + rho / (a + 0) * (rho / a * growth a u))) by (rewrite !Rplus_0_r; field; lra).
    apply (derivable_pt_lim_opp (fun h => rho / (a + h) * growth (a + h) u)), (derivable_pt_lim_mult (fun h => rho / (a + h)) (fun h => growth (a + h) u)); [exact Inv|apply growth_first, Ha].
  - apply (derivable_pt_lim_opp (fun h => rho / a * growth a (u + h))), (derivable_pt_lim_scal (fun h => growth a (u + h))), growth_second.
  - apply (derivable_pt_lim_opp (fun h => growth (a + h) u)), growth_first, Ha.
  - apply (derivable_pt_lim_opp (fun h => growth a (u + h))), growth_second.
Qed.
Lemma second2_only (Q : list R -> R -> Prop) a b c d u i j l :
  (forall a b c d u v, Q [a; b; c; d; u] v -> nth_error first2 i = Some v) -> partial R RO Rle Q [a; b; c; d; u] j l -> (i < 5)%nat -> (j < 5)%nat ->
  nth_error (nth i second2 []) j = Some l.
Proof.
  intros Hr Hd Hi Hj; replace (nth_error (nth i second2 []) j) with (Some 0) by (five i; five j; reflexivity); f_equal; symmetry.
  eapply only_partial; [|apply (derivable_pt_lim_const (nth i first2 0))|exact Hd]; intros h v Hv.
  assert (G : exists y0 y1 y2 y3 y4, bump R RO [a; b; c; d; u] j h = [y0; y1; y2; y3; y4]) by (five j; cbn [bump]; repeat eexists).
  destruct G as (y0 & y1 & y2 & y3 & y4 & G); rewrite G in Hv; apply Hr in Hv; symmetry; apply nth_error_nth, Hv.
Qed.
Lemma r_differentiates l : signature R rendog [e1; e2] l -> differentiates R RO Rle real_ops rendog rstoch [e1; e2] g_params r_grad r_jacobian l.
Proof.
  intros Sg; apply r_signature in Sg as ->; intros e f [<-|[<-|[]]] Hf; cbn [List.length r_sig rstoch Nat.add] in *.
  - assert (Hr : forall a b c d u v, f [a; b; c; d; u] = Ok v <-> 0 < a /\ v = b - growth a u) by (intros; rewrite <- r_res1; apply Hf; reflexivity).
    assert (Pr : f probe = Ok (- (1))) by (apply Hr; split; [exact Rlt_0_1|rewrite growth_one; ring]).
    assert (Gr : forall a b c d u, r_grad f [a; b; c; d; u] = if is_pos a then Ok (first1 a u) else Err GenericErr) by (intros; unfold r_grad; rewrite Pr, is_zero_false by lra; reflexivity).
    split.
    + intros x Hx Hp; destruct x as [|a [|b [|c [|d [|u [|? ?]]]]]]; try discriminate Hx.
      destruct (Hp 0%nat ltac:(lia)) as (l & Hd); pose proof (proj1 (first1_only (fun y v => f y = Ok v) _ _ _ _ _ _ _ (fun a b c d u v => proj1 (Hr a b c d u v)) Hd ltac:(lia))) as Ha.
      exists (first1 a u); rewrite Gr, is_pos_true by exact Ha; split; [reflexivity|]; split; [reflexivity|].
      intros j l' Hj Hl'; exact (proj2 (first1_only (fun y v => f y = Ok v) _ _ _ _ _ _ _ (fun a b c d u v => proj1 (Hr a b c d u v)) Hl' Hj)).
    + intros x Hx entry Hp; destruct x as [|a [|b [|c [|d [|u [|? ?]]]]]]; try discriminate Hx.
      assert (He : forall i a b c d u t, entry i [a; b; c; d; u] t -> 0 < a /\ nth_error (first1 a u) i = Some t).
      { intros i a' b' c' d' u' t (r & E & Hw); rewrite Gr in E; unfold is_pos in E; destruct (Rlt_dec 0 a'); [injection E as <-; split; assumption|discriminate E]. }
      destruct (Hp 0%nat 0%nat ltac:(lia) ltac:(lia)) as (l & Hd); pose proof (proj1 (second1_only (entry 0%nat) _ _ _ _ _ _ _ _ (He 0%nat) Hd ltac:(lia) ltac:(lia))) as Ha.
      exists (second1 a u); unfold r_jacobian; unfold probe at 1; rewrite Gr, is_pos_true by exact Rlt_0_1; unfold first1.
      rewrite is_zero_false by (rewrite growth_one; unfold rho; lra); rewrite is_pos_true by exact Ha.
      split; [reflexivity|]; split; [reflexivity|]; split; [repeat constructor|].
      intros i j l' Hi Hj Hl'; exists (nth i (second1 a u) []); split; [five i; reflexivity|].
      exact (proj2 (second1_only (entry i) _ _ _ _ _ _ _ _ (He i) Hl' Hi Hj)).
  - assert (Hr : forall a b c d u v, f [a; b; c; d; u] = Ok v <-> v = c - (rho * d + u)) by (intros; rewrite <- (r_res2 a b); apply Hf; reflexivity).
    assert (Pr : f probe = Ok 0) by (apply Hr; ring).
    assert (Gr : forall a b c d u, r_grad f [a; b; c; d; u] = Ok first2) by (intros; unfold r_grad; rewrite Pr, is_zero_true by reflexivity; reflexivity).
    split.
    + intros x Hx Hp; destruct x as [|a [|b [|c [|d [|u [|? ?]]]]]]; try discriminate Hx.
      exists first2; rewrite Gr; split; [reflexivity|]; split; [reflexivity|].
      intros j l' Hj Hl'; exact (first2_only (fun y v => f y = Ok v) _ _ _ _ _ _ _ (fun a b c d u v => proj1 (Hr a b c d u v)) Hl' Hj).
    + intros x Hx entry Hp; destruct x as [|a [|b [|c [|d [|u [|? ?]]]]]]; try discriminate Hx.
      assert (He : forall i a b c d u t, entry i [a; b; c; d; u] t -> nth_error first2 i = Some t) by (intros i a' b' c' d' u' t (r & E & Hw); rewrite Gr in E; injection E as <-; exact Hw).
      exists second2; unfold r_jacobian; unfold probe at 1; rewrite Gr; unfold first2; rewrite is_zero_true by reflexivity.
      split; [reflexivity|]; split; [reflexivity|]; split; [repeat constructor|].
      intros i j l' Hi Hj Hl'; exists (nth i second2 []); split; [five i; reflexivity|].
      exact (second2_only (entry i) _ _ _ _ _ _ _ _ (He i) Hl' Hi Hj).
Qed.

(** ** The routines *)

(** Matrices that are diagonal with no zero. *)
Definition diagonal (n : nat) (A : mat R) : bool :=
  forallb (fun i => forallb (fun j => if (i =? j)%nat then negb (is_zero (A i j)) else is_zero (A i j)) (seq 0 n)) (seq 0 n).
Lemma is_zero_iff x : is_zero x = true <-> x = 0.
Proof. unfold is_zero; destruct (Req_EM_T x 0); split; intros; try discriminate; try reflexivity; try assumption; contradiction. Qed.
Lemma diagonal_iff n A : diagonal n A = true <-> forall i j, (i < n)%nat -> (j < n)%nat -> if (i =? j)%nat then A i j <> 0 else A i j = 0.
Proof.
  unfold diagonal; rewrite forallb_forall; split.
  - intros H i j Hi Hj; specialize (H i ltac:(apply in_seq; lia)); rewrite forallb_forall in H; specialize (H j ltac:(apply in_seq; lia)); destruct (i =? j)%nat.
    + intros E; apply is_zero_iff in E; rewrite E in H; discriminate H.
    + apply is_zero_iff, H.
  - intros H i Hi; apply in_seq in Hi; apply forallb_forall; intros j Hj; apply in_seq in Hj; specialize (H i j ltac:(lia) ltac:(lia)); destruct (i =? j)%nat.
    + apply negb_true_iff, is_zero_false, H.
    + apply is_zero_iff, H.
Qed.
Definition unit_matrix : mat R := fun i j => if (i =? j)%nat then 1 else 0.
Lemma single n k f : (k < n)%nat -> (forall i, (i < n)%nat -> i <> k -> f i = 0) -> SimSpec.Sum R RO n f = f k.
Proof. intros Hk H; rewrite Sum_rsum; apply (rsum_single R RO (F_R R_field)); assumption. Qed.
Definition r_inv (n : nat) (A : mat R) : res (mat R) := if diagonal n A then Ok (fun i j => if (i =? j)%nat then / A i i else 0) else Err GenericErr.
Lemma r_inv_ok : inverse_routine R RO r_inv.
Proof.
  intros n A B H i j Hi Hj; unfold r_inv in H; destruct (diagonal n A) eqn:D; [|discriminate H]; injection H as <-; rewrite diagonal_iff in D; cbn.
  assert (N : forall k, (k < n)%nat -> A k k <> 0) by (intros k Hk; specialize (D k k Hk Hk); rewrite Nat.eqb_refl in D; exact D).
  assert (Z : forall k l, (k < n)%nat -> (l < n)%nat -> k <> l -> A k l = 0) by (intros k l Hk Hl Nkl; specialize (D k l Hk Hl); rewrite (proj2 (Nat.eqb_neq k l) Nkl) in D; exact D).
  split.
  - rewrite (single n i); [|exact Hi|intros k Hk Nk; rewrite (Z i k Hi Hk) by congruence; ring]; destruct (Nat.eqb_spec i j) as [<-|Nij]; [|ring]; apply Rinv_r, N, Hi.
  - rewrite (single n i); [|exact Hi|intros k Hk Nk; rewrite (proj2 (Nat.eqb_neq i k)) by lia; ring]; rewrite Nat.eqb_refl; destruct (Nat.eqb_spec i j) as [<-|Nij]; [apply Rinv_l, N, Hi|rewrite (Z i j Hi Hj Nij); ring].
Qed.
Definition r_solve (n k : nat) (A B : mat R) : res (mat R) := if diagonal n A then Ok (fun i j => / A i i * B i j) else eliminate R RO Rinv r_eq n k A B.
Lemma diagonal_row n A (v : nat -> R) i : diagonal n A = true -> (i < n)%nat -> SimSpec.Sum R RO n (fun l => A i l * v l) = A i i * v i /\ A i i <> 0.
Proof.
  intros D Hi; rewrite diagonal_iff in D; split.
  - apply (single n i (fun l => A i l * v l)); [exact Hi|]; intros k Hk Nk; specialize (D i k Hi Hk); rewrite (proj2 (Nat.eqb_neq i k)) in D by lia; rewrite D; ring.
  - specialize (D i i Hi Hi); rewrite Nat.eqb_refl in D; exact D.
Qed.
Lemma r_solve_ok : linear_routine R RO r_solve.
Proof.
  intros n k A B X H i j Hi Hj; unfold r_solve in H; destruct (diagonal n A) eqn:D.
  - injection H as <-; cbn; destruct (diagonal_row n A (fun l => / A l l * B l j) i D Hi) as [E N]; rewrite E; field; exact N.
  - exact (eliminate_ok R RO Rinv R_field r_eq r_eq_iff n k A B X H i j Hi Hj).
Qed.
Lemma r_solve_err : fails_when_singular R RO r_solve.
Proof. intros n k A B e H; unfold r_solve in H; destruct (diagonal n A); [discriminate H|]; exact (eliminate_err R RO Rinv R_field r_eq r_eq_iff n k A B e H). Qed.
Lemma r_solve_refuses : refuses_singular R RO r_solve.
Proof.
  intros n k A B X H v K i Hi; unfold r_solve in H; destruct (diagonal n A) eqn:D.
  - destruct (diagonal_row n A v i D Hi) as [E N]; specialize (K i Hi); cbn in K; rewrite E in K; apply Rmult_integral in K as [K|K]; [contradiction|exact K].
  - exact (eliminate_refuses R RO Rinv R_field r_eq r_eq_iff n k A B X H v K i Hi).
Qed.
(** The pencils of two diagonal matrices of two rows, the root of the first row inside the unit
    circle and that of the second outside. *)
Definition r_qz (n : nat) (A B : mat R) : res (schur R) :=
  if (n =? 2)%nat && diagonal 2 A && diagonal 2 B && r_lt (A 0%nat 0%nat * A 0%nat 0%nat) (B 0%nat 0%nat * B 0%nat 0%nat) && r_lt (B 1%nat 1%nat * B 1%nat 1%nat) (A 1%nat 1%nat * A 1%nat 1%nat)
  then Ok (Schur A B [Fin (A 0%nat 0%nat / B 0%nat 0%nat) 0; Fin (A 1%nat 1%nat / B 1%nat 1%nat) 0] unit_matrix unit_matrix) else Err GenericErr.
Lemma r_lt_true x y : r_lt x y = true <-> x < y.
Proof. unfold r_lt; destruct (Rlt_dec x y); split; intros; try discriminate; try reflexivity; try assumption; contradiction. Qed.
Lemma r_qz_ok : schur_routine R RO Rle r_qz.
Proof.
  intros n A B q H; unfold r_qz in H; destruct (Nat.eqb_spec n 2) as [->|]; [|discriminate H]; cbn [andb] in H.
  destruct (diagonal 2 A) eqn:DA; [|discriminate H]; destruct (diagonal 2 B) eqn:DB; [|discriminate H]; cbn [andb] in H.
  destruct (r_lt (A 0%nat 0%nat * A 0%nat 0%nat) _) eqn:L0; [|discriminate H]; destruct (r_lt (B 1%nat 1%nat * B 1%nat 1%nat) _) eqn:L1; [|discriminate H]; cbn [andb] in H; injection H as <-.
  apply r_lt_true in L0, L1; rewrite diagonal_iff in DA, DB.
  pose proof (DA 0%nat 0%nat ltac:(lia) ltac:(lia)) as A00; pose proof (DA 0%nat 1%nat ltac:(lia) ltac:(lia)) as A01; pose proof (DA 1%nat 0%nat ltac:(lia) ltac:(lia)) as A10; pose proof (DA 1%nat 1%nat ltac:(lia) ltac:(lia)) as A11.
  pose proof (DB 0%nat 0%nat ltac:(lia) ltac:(lia)) as B00; pose proof (DB 0%nat 1%nat ltac:(lia) ltac:(lia)) as B01; pose proof (DB 1%nat 0%nat ltac:(lia) ltac:(lia)) as B10; pose proof (DB 1%nat 1%nat ltac:(lia) ltac:(lia)) as B11.
  cbn in A00, A01, A10, A11, B00, B01, B10, B11.
  assert (In0 : inside_circle R RO Rle (Fin (A 0%nat 0%nat / B 0%nat 0%nat) 0)).
  { cbn; intros G; replace (A 0%nat 0%nat / B 0%nat 0%nat * (A 0%nat 0%nat / B 0%nat 0%nat) + 0 * 0) with (A 0%nat 0%nat * A 0%nat 0%nat / (B 0%nat 0%nat * B 0%nat 0%nat)) in G by (field; exact B00).
    assert (P : 0 < B 0%nat 0%nat * B 0%nat 0%nat) by nra; apply (Rmult_le_compat_r _ _ _ (Rlt_le _ _ P)) in G; unfold Rdiv in G; rewrite Rmult_assoc, Rinv_l in G by lra; lra. }
  assert (In1 : ~ inside_circle R RO Rle (Fin (A 1%nat 1%nat / B 1%nat 1%nat) 0)).
  { cbn; intros G; apply G; replace (A 1%nat 1%nat / B 1%nat 1%nat * (A 1%nat 1%nat / B 1%nat 1%nat) + 0 * 0) with (A 1%nat 1%nat * A 1%nat 1%nat / (B 1%nat 1%nat * B 1%nat 1%nat)) by (field; exact B11).
    assert (P : 0 < B 1%nat 1%nat * B 1%nat 1%nat) by nra; apply (Rmult_le_reg_r _ _ _ P); unfold Rdiv; rewrite Rmult_assoc, Rinv_l by lra; lra. }
  assert (Or : orthogonal R RO 2 unit_matrix) by (split; intros i j Hi Hj; destruct i as [|[|i]], j as [|[|j]]; try lia; cbn; ring).
  constructor; cbn [q_Q q_Z q_S q_T q_eig]; try exact Or.
  - intros i j Hi Hj; destruct i as [|[|i]], j as [|[|j]]; try lia; cbn; rewrite ?A01, ?A10; ring.
  - intros i j Hi Hj; destruct i as [|[|i]], j as [|[|j]]; try lia; cbn; rewrite ?B01, ?B10; ring.
  - intros i j Hi Hj; assert (i = 1%nat) by lia; assert (j = 0%nat) by lia; subst; exact B10.
  - intros i j Hi Hj; lia.
  - reflexivity.
  - intros j Hj _ _; destruct j as [|[|j]]; [| |lia]; cbn; split; try reflexivity; field; assumption.
  - intros j Hj N; assert (j = 0%nat) by lia; subst; contradiction.
  - exists 1%nat; split; [lia|]; split; [intros i Hi; assert (i = 0%nat) by lia; subst; exact In0|intros i Hi; assert (i = 1%nat) by lia; subst; exact In1].
Qed.
Definition r_qr (n s : nat) (A : mat R) : res (mat R * mat R) := Err GenericErr.
Definition r_rank (n s : nat) (A : mat R) : nat := 0%nat.
Definition r_qz2 (n : nat) (A B : mat R) : res (mat R * mat R * mat R * mat R) := Err GenericErr.
(** Tries one point. *)
Definition r_minimize (_ : solver) (g : list R -> res R) (x0 : list R) : res (list R) :=
  if (List.length x0 =? 2)%nat then match g [1; 0] with Ok v => if is_zero v then Ok [1; 0] else Err ValueErr | Err e => Err e end else Err ValueErr.
Lemma r_minimize_ok s m x0 y : r_minimize s (least_squares R RO real_ops m) x0 = Ok y -> least R Rle (List.length x0) (least_squares R RO real_ops m) y.
Proof.
  unfold r_minimize; destruct (Nat.eqb_spec (List.length x0) 2) as [->|]; [|discriminate].
  destruct (least_squares R RO real_ops m [1; 0]) as [v|] eqn:E; [|discriminate]; destruct (is_zero v) eqn:Z; [|discriminate]; intros H; injection H as <-; apply is_zero_iff in Z; subst v.
  split; [reflexivity|]; exists 0; split; [exact E|]; intros z v _ H; unfold least_squares in H.
  destruct (mapM _ _) as [r|]; [|discriminate H]; injection H as <-.
  apply (OrderProofs.sum_nonneg R RO Rinv R_field Rle R_ordered); intros i _; apply (sq_nonneg R RO Rinv R_field Rle R_ordered).
Qed.
Definition r_chol (n : nat) (S : nat -> nat -> R) : res (nat -> nat -> R) :=
  if (n =? 1)%nat && negb (r_lt (S 0%nat 0%nat) 0) then Ok (fun _ _ => sqrt (S 0%nat 0%nat)) else Err GenericErr.
Lemma r_exact_first : exact_first r_minimize r_qr r_qz r_inv r_solve.
Proof. split; [intros n s A Q U H; discriminate H|]; split; [exact r_qz_ok|]; split; [exact r_inv_ok|]; split; [exact r_solve_ok|exact r_minimize_ok]. Qed.
Lemma r_exact_second : exact_second r_qz2 r_solve.
Proof. split; [intros n A B AA BB Q U H; discriminate H|]; split; [exact r_solve_err|exact r_solve_refuses]. Qed.

(** ** The model of the file *)
Definition r_space := whole_space R RO real_ops r_lt 0 r_minimize r_grad r_qr r_rank r_qz.
Definition r_solver := whole_solver R RO real_ops r_eq 0 r_minimize r_grad r_jacobian r_inv r_qz2 r_solve.
Definition r_new := ModelState.new_model R real_ops 0 1 r_true r_decimal r_trunc r_text (space_of R) (rules R) r_space.
Definition r_step := ModelState.step R real_ops 0 1 r_true (fun _ => true) r_decimal r_trunc r_text false (space_of R) (rules R) r_space r_solver.
Definition r_index : indexes := Eval cbv in match build R rendog rstoch [e1; e2] g_params with Ok m => DynFunc.r_index R m | Err _ => Indexes [] [] [] 0 0 end.
Definition r_steady : steady_repr R := SRepr rendog [e1; e2] g_params.
Definition r_dynamic : repr R := Repr R rendog rstoch [e1; e2] g_params r_index.

Lemma r_ss is : List.length is = 2%nat -> ss_values R RO real_ops 0 r_minimize is r_steady r_dynamic = Ok [1; 0].
Proof.
  intros Li; unfold ss_values, steady_values; cbn [compute bind]; unfold r_minimize, initial_values; rewrite map_length, Li; cbn [Nat.eqb].
  set (g := least_squares _ _ _ _).
  assert (E : g [1; 0] = Ok (0 + (1 - growth 1 0) * (1 - growth 1 0) + (0 - (rho * 0 + 0)) * (0 - (rho * 0 + 0)))).
  { unfold g, growth; cbv -[rho is_pos Rminus Rmult Rplus exp ln IZR]; rewrite is_pos_true by exact Rlt_0_1; reflexivity. }
  rewrite E, is_zero_true; [reflexivity|]; rewrite growth_one; ring.
Qed.
Definition r_rows : list (list R) := [[- rho; 1; 0; 0; - (1)]; [0; 0; 1; - rho; - (1)]].
Definition r_jm : mat R := fun i j => nth j (nth i r_rows []) 0.
Definition r_J : nd R := M2 2 5 r_jm.
Lemma r_jac : model_jacobian R real_ops 0 r_grad r_dynamic [1; 0] = Ok r_J.
Proof.
  unfold model_jacobian, linearization_array, dynamic_funcs.
  set (x := steady_point _ _ _ _); change x with [1; 1; 0; 0; 0]; clear x.
  cbn [map mapM r_dynamic r_exprs r_endog r_stoch r_params DynFunc.r_index].
  change (dyn_vars r_index rendog rstoch) with ["xm1"; "x"; "y"; "yp1"; "e"].
  assert (E1 : r_grad (dynamic_func R real_ops e1 ["xm1"; "x"; "y"; "yp1"; "e"] g_params) [1; 1; 0; 0; 0] = Ok [- rho; 1; 0; 0; - (1)]).
  { unfold r_grad; assert (E : dynamic_func R real_ops e1 ["xm1"; "x"; "y"; "yp1"; "e"] g_params probe = Ok (- (1))).
    { apply r_residual; [left; reflexivity|]; apply r_res1; split; [exact Rlt_0_1|rewrite growth_one; ring]. }
    rewrite E, is_zero_false, is_pos_true by lra; unfold first1; rewrite growth_one; repeat f_equal; field. }
  assert (E2 : r_grad (dynamic_func R real_ops e2 ["xm1"; "x"; "y"; "yp1"; "e"] g_params) [1; 1; 0; 0; 0] = Ok [0; 0; 1; - rho; - (1)]).
  { unfold r_grad; assert (E : dynamic_func R real_ops e2 ["xm1"; "x"; "y"; "yp1"; "e"] g_params probe = Ok 0).
    { apply r_residual; [right; left; reflexivity|]; apply r_res2; ring. }
    rewrite E, is_zero_true by reflexivity; reflexivity. }
  rewrite E1, E2; reflexivity.
Qed.
Definition r_parts : nd R * nd R * nd R := Eval cbv -[Ropp IZR r_jm] in match structural R RO r_qr r_rank r_index r_J with Ok t => t | Err _ => (r_J, r_J, r_J) end.
Definition entries (a : nd R) : mat R := match a with M2 _ _ f => f | _ => fun _ _ => 0 end.
Definition r_d : mat R := entries (fst (fst r_parts)).
Definition r_e : mat R := entries (snd (fst r_parts)).
Lemma r_structural : structural R RO r_qr r_rank r_index r_J = Ok (M2 2 2 r_d, M2 2 2 r_e, r_J).
Proof. cbv -[Ropp IZR r_jm]; reflexivity. Qed.
Lemma half : rho = 1 / 2.
Proof. unfold rho; lra. Qed.
Ltac four i j := destruct i as [|[|i]]; destruct j as [|[|j]]; try (exfalso; lia).
Definition r_roots : list (cnum R) := [Fin (rho / 1) 0; Fin (- (1) / - rho) 0].
Definition r_schur : schur R := Schur r_e r_d r_roots unit_matrix unit_matrix.
Lemma r_entries : r_d 0%nat 0%nat = 1 /\ r_d 0%nat 1%nat = 0 /\ r_d 1%nat 0%nat = 0 /\ r_d 1%nat 1%nat = - rho /\
  r_e 0%nat 0%nat = rho /\ r_e 0%nat 1%nat = 0 /\ r_e 1%nat 0%nat = 0 /\ r_e 1%nat 1%nat = - (1).
Proof. cbv -[Ropp IZR rho Rminus Rplus Rmult]; repeat apply conj; try reflexivity; ring. Qed.
Lemma r_pencil : r_qz 2 r_e r_d = Ok r_schur.
Proof.
  pose proof r_entries as (D1 & D2 & D3 & D4 & E1 & E2 & E3 & E4); pose proof half as Hh.
  unfold r_qz; cbn [Nat.eqb andb]; rewrite (proj2 (diagonal_iff 2 r_e)), (proj2 (diagonal_iff 2 r_d)).
  - rewrite D1, D4, E1, E4, !(proj2 (r_lt_true _ _)) by (rewrite Hh; lra); reflexivity.
  - intros i j Hi Hj; four i j; cbn [Nat.eqb]; try assumption; rewrite ?D1, ?D4, ?Hh; lra.
  - intros i j Hi Hj; four i j; cbn [Nat.eqb]; try assumption; rewrite ?E1, ?E4, ?Hh; lra.
Qed.
Lemma r_above : map (above R RO r_lt) r_roots = [false; true].
Proof.
  pose proof half as Hh; unfold r_roots; cbn [map above r1 r0 RO].
  replace (rho / 1) with (1 / 2) by (rewrite Hh; field); replace (- (1) / - rho) with 2 by (rewrite Hh; field).
  rewrite (proj2 (r_lt_true (1 / 2) 1)), (proj2 (r_lt_true 1 2)), (proj2 (r_lt_le 1 (1 / 2))) by lra; reflexivity.
Qed.
Definition r_state : state R :=
  State r_J (M2 2 2 r_d) (M2 2 2 r_e) r_roots (M2 1 1 (mtr R unit_matrix)) (M2 1 1 (sub R 0 1 (mtr R unit_matrix))) (M2 1 1 (sub R 1 0 (mtr R unit_matrix))) (M2 1 1 (sub R 1 1 (mtr R unit_matrix)))
    (M2 1 1 r_d) (M2 1 1 r_e).
Lemma r_space_state : state_space R RO r_lt r_qr r_rank r_qz r_index r_J = Ok r_state.
Proof.
  unfold state_space; rewrite r_structural; cbn [bind fst snd]; unfold partitioned_qz; cbn [Nat.eqb andb negb]; rewrite r_pencil; cbn [bind r_schur q_eig]; rewrite r_above; reflexivity.
Qed.
Definition r_sp : space_of R := SpaceOf [1; 0] r_J r_state.
Lemma r_space_ok is : List.length is = 2%nat -> r_space is r_steady r_dynamic = Ok r_sp.
Proof. intros Li; unfold r_space, whole_space; rewrite r_ss by exact Li; cbn [bind r0 RO]; rewrite r_jac; cbn [bind]; change (DynFunc.r_index R r_dynamic) with r_index; rewrite r_space_state; reflexivity. Qed.

Lemma r_solve_diag n k A B : (forall i j, (i < n)%nat -> (j < n)%nat -> if (i =? j)%nat then A i j <> 0 else A i j = 0) -> r_solve n k A B = Ok (fun i j => / A i i * B i j).
Proof. intros H; unfold r_solve; rewrite (proj2 (diagonal_iff n A) H); reflexivity. Qed.
Lemma r_inv_diag n A : (forall i j, (i < n)%nat -> (j < n)%nat -> if (i =? j)%nat then A i j <> 0 else A i j = 0) -> r_inv n A = Ok (fun i j => if (i =? j)%nat then / A i i else 0).
Proof. intros H; unfold r_inv; rewrite (proj2 (diagonal_iff n A) H); reflexivity. Qed.
Lemma r_first : exists gy gu, solve_first_order R RO r_inv r_solve r_index r_state = Ok (V1 2 gy, V1 2 gu) /\ gy 0%nat = rho /\ gy 1%nat = 0 /\ gu 0%nat = 1 /\ gu 1%nat = 1.
Proof.
  pose proof r_entries as (D1 & D2 & D3 & D4 & E1 & E2 & E3 & E4); pose proof half as Hh.
  unfold solve_first_order, solve_nonstatic; cbn [r_state jac Z22 Z21 Z11 T11 S11 nsolve Nat.eqb negb].
  rewrite r_solve_diag by (intros i j Hi Hj; four i j; cbv -[IZR Ropp]; lra); cbn [bind ninv Nat.eqb ntrans].
  rewrite r_inv_diag by (intros i j Hi Hj; four i j; cbn [Nat.eqb]; rewrite D1; lra); cbn [bind ninv Nat.eqb ntrans ndot nneg fst snd].
  rewrite r_inv_diag by (intros i j Hi Hj; four i j; cbv -[IZR Ropp]; lra); cbn [bind ninv Nat.eqb ntrans ndot nneg fst snd].
  cbv -[rho Ropp Rmult Rplus IZR Rinv Rminus r_inv r_solve r_jm r_d r_e unit_matrix].
  rewrite r_inv_diag by (intros i j Hi Hj; lia).
  cbv -[rho Ropp Rmult Rplus IZR Rinv Rminus r_inv r_solve r_jm r_d r_e unit_matrix].
  rewrite r_solve_diag.
  - eexists; eexists; split; [reflexivity|]; split; [|split; [|split]]; cbv -[rho Ropp Rmult Rplus IZR Rinv Rminus]; field.
  - intros i j Hi Hj; four i j; cbv -[rho Ropp Rmult Rplus IZR Rinv Rminus]; lra.
Qed.
Lemma r_smooth : smooth_at R RO rendog rstoch [e1; e2] g_params real_fns real_pows [1; 0].
Proof.
  constructor; [|constructor; [|constructor]].
  - exists (1 - exp (rho * ln 1 + 0)); unfold e1, g_eq; apply (S_sub R RO); [constructor; left; exists 0%nat; split; reflexivity|].
    apply (S_fun R RO real_fns real_pows _ _ _ "exp" "exp"); [cbn; tauto| |exact I].
    apply (S_add R RO); [|constructor; right; split; [left; reflexivity|reflexivity]].
    apply (S_mul R RO); [constructor; reflexivity|].
    apply (S_fun R RO real_fns real_pows _ _ _ "log" "log"); [cbn; tauto| |exact Rlt_0_1].
    constructor; left; exists 0%nat; split; reflexivity.
  - exists (0 - (rho * 0 + 0)); unfold e2; apply (S_sub R RO); [constructor; left; exists 1%nat; split; reflexivity|].
    apply (S_add R RO); [|constructor; right; split; [left; reflexivity|reflexivity]].
    apply (S_mul R RO); [constructor; reflexivity|constructor; left; exists 1%nat; split; reflexivity].
Qed.
Lemma r_is_steady : is_steady R RO real_ops rendog rstoch [e1; e2] g_params [1; 0].
Proof.
  split; [reflexivity|]; constructor; [|constructor; [|constructor]]; unfold steady_residual; cbn zeta.
  - unfold e1, g_eq; eapply V_bin; [constructor; left; exists 0%nat; split; reflexivity| |].
    + eapply (V_fun _ _ _ _ _ "exp"); [cbn; tauto| |reflexivity].
      eapply V_bin; [|constructor; right; split; [left; reflexivity|reflexivity]|reflexivity].
      eapply V_bin; [constructor; reflexivity| |reflexivity].
      eapply (V_fun _ _ _ _ _ "log"); [cbn; tauto|constructor; left; exists 0%nat; split; reflexivity|].
      cbn; rewrite is_pos_true by exact Rlt_0_1; reflexivity.
    + cbn; f_equal; rewrite ln_1, Rmult_0_r, Rplus_0_r, exp_0; ring.
  - unfold e2; eapply V_bin; [constructor; left; exists 1%nat; split; reflexivity| |].
    + eapply V_bin; [|constructor; right; split; [left; reflexivity|reflexivity]|reflexivity].
      eapply V_bin; [constructor; reflexivity|constructor; left; exists 1%nat; split; reflexivity|reflexivity].
    + cbn; f_equal; ring.
Qed.
Lemma r_solvable : solvable R RO real_ops r_grad r_jacobian Rle real_fns real_pows rendog rstoch g_params [e1; e2] r_sp.
Proof.
  split; [exact r_differentiates|]; split; [exists [1; 0]; exact r_is_steady|]; split; [exact r_smooth|]; left.
  exists (Fin (- (1) / - rho) 0); split; [right; left; reflexivity|]; left; cbn; rewrite half; replace (- (1) / - (1 / 2)) with 2 by field; lra.
Qed.

Definition r_out : outline R := Eval cbv -[rho IZR real_ops] in
  match Factory.read_model R real_ops 2 r_decimal r_trunc 0 (chars rtext) with Ok o => o | Err _ => Outline R [] [] [] [] [] [] [] [] [] [] [] end.
Lemma r_read : Factory.read_model R real_ops 2 r_decimal r_trunc 0 (chars rtext) = Ok r_out.
Proof. cbv -[rho IZR real_ops]; reflexivity. Qed.
Lemma r_made : exists base, (forall space, ModelState.new_model R real_ops 0 1 r_true r_decimal r_trunc r_text (space_of R) (rules R) space (outline_args R r_out) =
    do sp <- space [Some 0; Some 0] r_steady r_dynamic; Ok (base sp)) /\
  (forall sp, model_scope R (definition _ _ _ (base sp)) = g_params) /\
  (forall sp space solver, ModelState.step R real_ops 0 1 r_true (fun _ => true) r_decimal r_trunc r_text false (space_of R) (rules R) space solver (Read RSpace) (base sp) = (base sp, Ok (OValue (VSpace sp)))) /\
  (forall sp space solver s, space [Some 0; Some 0] r_steady r_dynamic = Ok sp -> solver None [Some 0; Some 0] r_steady r_dynamic sp = Ok s ->
     exists m', ModelState.step R real_ops 0 1 r_true (fun _ => true) r_decimal r_trunc r_text false (space_of R) (rules R) space solver (Solve 1) (base sp) = (m', Ok (OSolution s))) /\
  (forall sp space solver s, space [Some 0; Some 0] r_steady r_dynamic = Ok sp -> solver None [Some 0; Some 0] r_steady r_dynamic sp = Ok s ->
     exists sg : nat -> nat -> R, sg 0%nat 0%nat = 1 /\ forall minimize chol given periods noise init,
     snd (whole_simulate R RO real_ops (fun _ => true) 0 minimize chol space solver 1 given periods noise init (base sp)) =
     do ss <- ss_values R RO real_ops 0 minimize [Some 0; Some 0] r_steady r_dynamic;
     Sim.simulate R RO chol (SModel ss [0%nat; 1%nat] [0%nat] ["e"] sg) (as_sim R s) given periods noise init) /\
  (forall sp space solver s, space [Some 0; Some 0] r_steady r_dynamic = Ok sp -> solver None [Some 0; Some 0] r_steady r_dynamic sp = Ok s ->
     exists m', ModelState.step R real_ops 0 1 r_true (fun _ => true) r_decimal r_trunc r_text false (space_of R) (rules R) space solver (Simulate 1) (base sp) = (m', Ok (OSimulation s sp))).
Proof.
  eexists; split; [intros space; cbv -[rho IZR real_ops is_zero]; reflexivity|]; split; [intros sp; reflexivity|]; split; [intros sp space solver; reflexivity|].
  repeat split; intros sp space solver s Hs Hv; unfold r_steady, r_dynamic, rendog, rstoch, e1, e2, g_eq, g_params, r_index in Hs, Hv.
  2:{ eexists; split; cycle 1.
    - intros minimize chol given periods noise init; unfold whole_simulate; cbv -[rho IZR real_ops is_zero ss_values Sim.simulate as_sim Rle];
        match goal with |- context [solver ?a ?b ?c ?d ?e] => replace (solver a b c d e) with (Ok s) by (symmetry; exact Hv) end.
      cbv -[rho IZR real_ops is_zero ss_values Sim.simulate as_sim].
      match goal with |- context [space ?a ?b ?c] => replace (space a b c) with (Ok sp) by (symmetry; exact Hs) end.
      cbv -[rho IZR real_ops is_zero ss_values Sim.simulate as_sim].
      reflexivity.
    - reflexivity. }
  - eexists; cbv -[rho IZR real_ops is_zero]; match goal with |- context [solver ?a ?b ?c ?d ?e] => replace (solver a b c d e) with (Ok s) by (symmetry; exact Hv) end; reflexivity.
  - eexists; cbv -[rho IZR real_ops is_zero]; match goal with |- context [solver ?a ?b ?c ?d ?e] => replace (solver a b c d e) with (Ok s) by (symmetry; exact Hv) end; cbv -[rho IZR real_ops is_zero].
    match goal with |- context [space ?a ?b ?c] => replace (space a b c) with (Ok sp) by (symmetry; exact Hs) end; reflexivity.
Qed.
(** Two periods, with a shock in the first. *)
Definition r_shocks : nd R := M2 3 1 (fun t _ => if (t =? 0)%nat then 1 else 0).
Definition r_simulate := whole_simulate R RO real_ops (fun _ => true) 0 r_minimize r_chol r_space r_solver.
(** The model is solved: x responds to its own past with rho and to the shock with 1, and y to
    the shock with 1 only. *)
Example C92_reals_nonvacuous : exists f m m' gy gu, rfile = Ok f /\ Factory.read_model R real_ops 2 r_decimal r_trunc 0 (chars rtext) = Ok r_out /\ r_new (outline_args R r_out) = Ok m /\
  r_step (Solve 1) m = (m', Ok (OSolution (Pipeline.First (V1 2 gy) (V1 2 gu)))) /\ gy 0%nat = rho /\ gy 1%nat = 0 /\ gu 0%nat = 1 /\ gu 1%nat = 1 /\
  plain_file R f /\ exact_first r_minimize r_qr r_qz r_inv r_solve /\ exact_second r_qz2 r_solve /\
  solvable R RO real_ops r_grad r_jacobian Rle real_fns real_pows rendog rstoch g_params [e1; e2] r_sp /\
  is_steady R RO real_ops rendog rstoch [e1; e2] g_params [1; 0] /\ real_solves_first rendog rstoch g_params [e1; e2] [1; 0] (V1 2 gy) (V1 2 gu).
Proof.
  destruct r_first as (gy & gu & Eg & G1 & G2 & G3 & G4); destruct r_made as (base & B1 & B2 & B3 & B4 & _).
  assert (Es : r_solver None [Some 0; Some 0] r_steady r_dynamic r_sp = Ok (Pipeline.First (V1 2 gy) (V1 2 gu))).
  { unfold r_solver, whole_solver; change (DynFunc.r_index R r_dynamic) with r_index; cbn [sp_state r_sp]; rewrite Eg; reflexivity. }
  pose proof (r_space_ok [Some 0; Some 0] eq_refl) as Ep; destruct (B4 r_sp r_space r_solver _ Ep Es) as (m' & Em).
  assert (En : r_new (outline_args R r_out) = Ok (base r_sp)) by (unfold r_new; rewrite B1, Ep; reflexivity).
  destruct (C92_reals_partial 0 r_minimize r_grad r_jacobian r_qr r_rank r_qz r_inv r_qz2 r_solve r_true (fun _ => true) r_decimal r_trunc r_text false
    r_exact_first r_exact_second (chars rtext) r_out (base r_sp) m' 1 _ r_read En Em) as (f & Hf & _ & sp & Rs & S).
  destruct (rfile_plain f Hf) as (F1 & F2 & F3 & F4); rewrite F1, F2, F3, B2 in S.
  assert (Q : sp = r_sp) by (pose proof (eq_trans (eq_sym Rs) (B3 r_sp r_space r_solver)) as Q; injection Q as Q; exact Q); subst sp.
  exists f, (base r_sp), m', gy, gu; split; [exact Hf|]; split; [exact r_read|]; split; [exact En|]; split; [exact Em|]; do 4 (split; [assumption|]).
  split; [exact F4|]; split; [exact r_exact_first|]; split; [exact r_exact_second|]; split; [exact r_solvable|].
  destruct S as [(_ & gy' & gu' & Eq & S)|([E|E] & _)]; try discriminate E; injection Eq as <- <-; exact (S F4 r_solvable).
Qed.

(** The file is simulated: a path of three periods, here 1, 2 and 3/2 for x, and 0, 1 and 0 for y. *)
Example C93_reals_nonvacuous : exists f m p factor, rfile = Ok f /\ Factory.read_model R real_ops 2 r_decimal r_trunc 0 (chars rtext) = Ok r_out /\ r_new (outline_args R r_out) = Ok m /\
  snd (r_simulate 1 (Some r_shocks) 0 (fun _ _ => 0) None m) = Ok p /\ p = [[1; 0]; [2; 1]; [3 / 2; 0]] /\ plain_file R f /\
  solvable R RO real_ops r_grad r_jacobian Rle real_fns real_pows rendog rstoch g_params [e1; e2] r_sp /\
  forall periods noise, real_paths_solve rendog rstoch g_params [e1; e2] [1; 0] factor (fun shocks init => snd (r_simulate 1 (Some shocks) periods noise (Some init) m)).
Proof.
  destruct r_first as (gy & gu & Eg & G1 & G2 & G3 & G4); destruct r_made as (base & B1 & B2 & B3 & B4 & B5 & B6).
  assert (Es : r_solver None [Some 0; Some 0] r_steady r_dynamic r_sp = Ok (Pipeline.First (V1 2 gy) (V1 2 gu))).
  { unfold r_solver, whole_solver; change (DynFunc.r_index R r_dynamic) with r_index; cbn [sp_state r_sp]; rewrite Eg; reflexivity. }
  pose proof (r_space_ok [Some 0; Some 0] eq_refl) as Ep; destruct (B5 r_sp r_space r_solver _ Ep Es) as (sg & Sg & Hw).
  assert (En : r_new (outline_args R r_out) = Ok (base r_sp)) by (unfold r_new; rewrite B1, Ep; reflexivity).
  assert (Hp : snd (r_simulate 1 (Some r_shocks) 0 (fun _ _ => 0) None (base r_sp)) = Ok [[1; 0]; [2; 1]; [3 / 2; 0]]).
  { unfold r_simulate; rewrite Hw, (r_ss [Some 0; Some 0] eq_refl); cbn [bind].
    assert (Hc : r_chol 1 sg = Ok (fun _ _ => sqrt (sg 0%nat 0%nat))) by (unfold r_chol; rewrite Sg, (proj2 (r_lt_le 1 0)) by lra; reflexivity).
    cbv -[r_chol Rplus Rmult Ropp Rinv IZR sqrt]; rewrite Hc.
    cbv -[Rplus Rmult Ropp Rinv IZR sqrt]; rewrite Sg, sqrt_1, G1, G2, G3, G4; unfold rho.
    assert (T : forall a b c d e g : R, a = 1 -> b = 0 -> c = 2 -> d = 1 -> e = 3 / 2 -> g = 0 -> @Ok (list (list R)) [[a; b]; [c; d]; [e; g]] = Ok [[1; 0]; [2; 1]; [3 / 2; 0]]) by (intros; subst; reflexivity).
    apply T; field. }
  destruct (C93_reals_partial 0 r_minimize r_grad r_jacobian r_qr r_rank r_qz r_inv r_qz2 r_solve r_chol r_true (fun _ => true) r_decimal r_trunc r_text false
    r_exact_first (chars rtext) r_out (base r_sp) _ _ _ _ _ r_read En Hp) as (f & Hf & _ & m1 & s1 & sp1 & sg1 & fa & S1 & S2 & S3 & S4).
  destruct (rfile_plain f Hf) as (F1 & F2 & F3 & F4); rewrite F1, F2, F3, B2 in S4; rewrite F2 in S3.
  destruct (B6 r_sp r_space r_solver _ Ep Es) as (m' & Em); pose proof (eq_trans (eq_sym S1) Em) as Q; injection Q as -> -> ->.
  exists f, (base r_sp), [[1; 0]; [2; 1]; [3 / 2; 0]], fa; split; [exact Hf|]; split; [exact r_read|]; split; [exact En|]; split; [exact Hp|]; split; [reflexivity|].
  split; [exact F4|]; split; [exact r_solvable|].
  destruct (S4 F4 r_solvable) as [_ S]; [left; cbn; lia|exact S].
Qed.
