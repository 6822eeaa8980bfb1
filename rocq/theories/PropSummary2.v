(** Summaries of a model and of its statistics: C85. *)
From Verif Require Import Base Nd Mat Indexing IndexingSpec IndexingProofs2 Sim SimSpec Moments MomentsSpec MomentsProofs MomentsProofs2 MomentsExample SimProofs3 NdInst
  SummaryTables SummaryTablesSpec SummaryTablesProofs PropMoments.
From Coq Require Import Sorted QArith Qcanon.
Local Open Scope nat_scope.

(** The summary of a model shows what is asked for, in that order, with every figure in the
    row and the column it belongs to.  Missing: [only] must not be an iterator, and a
    parameter cannot be asked for by a name of several letters. *)
Theorem C85_model_partial :
  forall (F : Type) (kind : F -> fkind) (C : Type) (re im modulus : C -> F) (argsort : list F -> list nat) (le : F -> F -> Prop)
    (v : view F C) (named : list (string * list Z)) (k : model_keys) bs,
  (forall l, Permutation (argsort l) (seq 0 (List.length l)) /\ forall d, StronglySorted (fun i j => le (nth i l d) (nth j l d)) (argsort l)) ->
  NoDup (map fst named) -> in_range (map snd named) -> index_manager named (List.length (v_stoch F C v)) = Ok (v_indexes F C v) ->
  (forall s, k_params k = ParamsText s -> s = "all"%string \/ String.length s <= 1) -> (forall l, k_only k <> OnlyOnce l) ->
  model_summary F kind C re im modulus argsort k v = Ok bs ->
  exists fs, asks ["variables"; "eigen"; "stoch"; "params"]%string (k_only k) fs /\
    prints (wanted k) (model_shows F C re im modulus le v (map snd named) (k_params k)) fs bs.
Proof.
  intros F kind C re im modulus argsort le v named k bs Hs Nd Rg Ix Sp Hr E.
  exact (summary_shows F kind C re im modulus argsort le Hs v named Nd Rg Ix k Sp bs Hr E).
Qed.
Print Assumptions C85_model_partial.

(** It is printed exactly when [only] names features and each wanted feature can be printed. *)
Theorem C85_model_printed :
  forall (F : Type) (kind : F -> fkind) (C : Type) (re im modulus : C -> F) (argsort : list F -> list nat) (le : F -> F -> Prop)
    (v : view F C) (k : model_keys),
  (forall l, Permutation (argsort l) (seq 0 (List.length l)) /\ forall d, StronglySorted (fun i j => le (nth i l d) (nth j l d)) (argsort l)) ->
  (forall s, k_params k = ParamsText s -> s = "all"%string \/ String.length s <= 1) -> (forall l, k_only k <> OnlyOnce l) ->
  (exists bs, model_summary F kind C re im modulus argsort k v = Ok bs) <->
  exists fs, asks ["variables"; "eigen"; "stoch"; "params"]%string (k_only k) fs /\
    forall f, In f fs -> wanted k f = true -> model_prints F kind C re im modulus v (k_params k) f.
Proof.
  intros F kind C re im modulus argsort le v k Hs Sp Hr; exact (summary_runs F kind C re im modulus argsort le Hs v k Sp Hr).
Qed.
Print Assumptions C85_model_printed.

(** The same for the statistics: the figures are those the statistics give. *)
Theorem C85_statistics_partial :
  forall (F : Type) (kind : F -> fkind) (mul : F -> F -> F) (s : stats F) mean std corr auto shares (k : stats_keys),
  shaped F s mean std corr auto shares -> (forall l, k_only_stats k <> OnlyOnce l) ->
  (forall bs, stats_summary F kind mul k s = Ok bs ->
   exists fs, asks ["moments"; "corr"; "autocorr"; "decomp"]%string (k_only_stats k) fs /\
     prints (wanted_stats k) (stats_shows F mul lag_label (s_endog F s) (s_stoch F s) (k_autocorr k) mean std corr auto shares) fs bs) /\
  ((exists bs, stats_summary F kind mul k s = Ok bs) <->
   exists fs, asks ["moments"; "corr"; "autocorr"; "decomp"]%string (k_only_stats k) fs /\
     forall f, In f fs -> wanted_stats k f = true ->
     stats_prints F kind mul (s_endog F s) (s_stoch F s) (k_autocorr k) mean std corr auto shares f).
Proof.
  intros F kind mul s mean std corr auto shares k Sd Hr; split.
  - intros bs E; exact (stats_summary_shows F kind mul s mean std corr auto shares Sd k bs Hr E).
  - exact (stats_summary_runs F kind mul s mean std corr auto shares Sd k Hr).
Qed.
Print Assumptions C85_statistics_partial.

(** What can be asked for, and the errors. *)
Theorem C85_only :
  forall (features : list string) (o : only_arg),
  (forall l, o <> OnlyOnce l) ->
  (forall fs, chosen features o = Ok fs <-> asks features o fs) /\
  (forall e, chosen features o = Err e -> (o = OnlyOther /\ e = TypeErr) \/ (o <> OnlyOther /\ e = ValueErr)).
Proof.
  intros features o Hr; split; [intros fs; apply chosen_ok; exact Hr|]; intros e.
  destruct o as [[|a s]|l|l|]; cbn [chosen]; [discriminate| | | |intros E; injection E as <-; auto].
  - destruct (is_feature features (String a s)); [discriminate|]; intros E; injection E as <-; right; split; [discriminate|reflexivity].
  - destruct (forallb _ _); [discriminate|]; intros E; injection E as <-; right; split; [discriminate|reflexivity].
  - destruct (Hr l eq_refl).
Qed.
Print Assumptions C85_only.

(** Different lags have different columns: an entry of the table of autocorrelations is the
    one of its lag. *)
Lemma lag_label_inj i j : lag_label i = lag_label j -> i = j.
Proof.
  unfold lag_label; cbn [append]; intros E; injection E as E.
  apply (f_equal DecimalString.NilZero.uint_of_string) in E.
  rewrite !DecimalString.NilZero.usu in E.
  - injection E as E; apply (f_equal Nat.of_uint) in E; rewrite !DecimalNat.Unsigned.of_to in E; exact E.
  - destruct j; [discriminate|]. intros H; apply (f_equal Nat.of_uint) in H; rewrite DecimalNat.Unsigned.of_to in H; discriminate H.
  - destruct i; [discriminate|]. intros H; apply (f_equal Nat.of_uint) in H; rewrite DecimalNat.Unsigned.of_to in H; discriminate H.
Qed.

Lemma grid_entry F title names columns (h : nat -> nat -> F) v j x : NoDup names -> NoDup columns -> v < List.length names -> j < List.length columns ->
  entry F (grid F title names columns h) (nth v names ""%string) (nth j columns ""%string) x -> x = h v j.
Proof.
  intros Nn Nc Hv Hj (i & j' & xs & E1 & E2 & E3); unfold grid in E1, E2; cbn [t_rows t_columns] in E1, E2.
  assert (Hi : i < List.length names).
  { assert (L : i < List.length (map (fun i => (nth i names ""%string, map (h i) (seq 0 (List.length columns)))) (seq 0 (List.length names)))) by (apply nth_error_Some; congruence).
    rewrite map_length, seq_length in L; exact L. }
  rewrite nth_error_map, (nth_error_nth' _ 0) in E1 by (rewrite seq_length; exact Hi); rewrite seq_nth in E1 by exact Hi; cbn [option_map Nat.add] in E1; injection E1 as E1 <-.
  assert (i = v) as -> by (apply (proj1 (NoDup_nth names ""%string) Nn); assumption).
  assert (Hj' : j' < List.length columns) by (apply nth_error_Some; congruence).
  assert (j' = j) as ->.
  { apply (proj1 (NoDup_nth columns ""%string) Nc); [exact Hj'|exact Hj|]; apply (nth_error_nth _ _ ""%string) in E2; exact E2. }
  rewrite nth_error_map, (nth_error_nth' _ 0) in E3 by (rewrite seq_length; exact Hj); rewrite seq_nth in E3 by exact Hj; injection E3 as <-; reflexivity.
Qed.
Lemma lag_columns p : NoDup (map lag_label (seq 0 p)).
Proof. apply FinFun.Injective_map_NoDup; [intros i j; apply lag_label_inj|apply seq_NoDup]. Qed.
Lemma lag_column p i : i < p -> nth i (map lag_label (seq 0 p)) ""%string = lag_label i.
Proof. intros H; rewrite (nth_indep _ _ (lag_label 0)) by (rewrite map_length, seq_length; exact H); rewrite map_nth, seq_nth by exact H; reflexivity. Qed.

(** The column headed "p = i" of the table of autocorrelations holds the correlation with the
    variable [i+1] periods ago. *)
Theorem C85_autocorrelations_partial :
  forall (F : Type) (O : rops F) (kind : F -> fkind) (lyap : nat -> mat F -> mat F -> res (mat F)) (sqrt : F -> F)
    (g : rule F) (m : smodel F) (sol : lsol F) (s : stats F) (p : Z) (t : table F),
  is_ring O -> solves_lyapunov F O lyap -> has_rule F g m sol -> 1 < rn g -> stable F O g ->
  NoDup (s_endog F s) -> List.length (s_endog F s) = rn g -> s_autocorr F s p = autocorr F O lyap sqrt (Ok tt) m sol p -> (0 < p)%Z ->
  autocorr_str F kind p s = Ok (Shown F t) ->
  t_columns F t = map lag_label (seq 0 (Z.to_nat p)) /\ map fst (t_rows F t) = s_endog F s /\
  forall v i x, v < rn g -> i < Z.to_nat p -> entry F t (nth v (s_endog F s) ""%string) (lag_label i) x ->
  forall (R : randoms F) y u, lawful F O R -> follows F O R g (m_sigma m) y u -> stationary F R g y -> forall d,
  x = rdiv O (covariance R (y (d + S i) v) (y d v)) (rmul O (sqrt (covariance R (y d v) (y d v))) (sqrt (covariance R (y d v) (y d v)))).
Proof.
  intros F O kind lyap sqrt g m sol s p t RT HL HR Hn Sb Nn Ln Ea Hp E.
  destruct (autocorr F O lyap sqrt (Ok tt) m sol p) as [l|] eqn:El; [|unfold autocorr_str in E; rewrite Ea in E; discriminate E].
  destruct (C45_correlations F O lyap sqrt g m sol p l RT HL HR Hn Sb El) as (_ & Ll & H).
  set (auto := fun i => match nth i l (S0 (r0 O)) with M2 _ _ f => f | _ => fun _ _ => r0 O end).
  assert (Em : l = map (fun i => M2 (rn g) (rn g) (auto i)) (seq 0 (Z.to_nat p))).
  { apply (nth_ext _ _ (S0 (r0 O)) (M2 (rn g) (rn g) (auto 0))); [rewrite map_length, seq_length; exact Ll|]; intros i Hi; rewrite Ll in Hi.
    rewrite (map_nth (fun i => M2 (rn g) (rn g) (auto i))); rewrite seq_nth by exact Hi; cbn [Nat.add]; destruct (H i Hi) as (h & Eh & _); unfold auto; rewrite Eh; reflexivity. }
  set (s2 := Stats F (s_endog F s) [] (Ok (V1 (rn g) (fun _ => r0 O))) (Ok (V1 (rn g) (fun _ => r0 O))) (Ok (M2 (rn g) (rn g) (fun _ _ => r0 O)))
    (fun q => if (q <? 0)%Z then Err ValueErr else Ok (map (fun i => M2 (rn g) (rn g) (auto i)) (seq 0 (Z.to_nat q)))) (Ok (M2 (rn g) 0 (fun _ _ => r0 O)))).
  assert (Sd : shaped F s2 (fun _ => r0 O) (fun _ => r0 O) (fun _ _ => r0 O) auto (fun _ _ => r0 O)).
  { constructor; cbn; rewrite ?Ln; try reflexivity; intros q Hq; [destruct (Z.ltb_spec q 0); [lia|reflexivity]|destruct (Z.ltb_spec q 0); [reflexivity|lia]]. }
  assert (E2 : autocorr_str F kind p s2 = Ok (Shown F t)).
  { rewrite <- E; unfold autocorr_str; rewrite Ea; cbn [s_autocorr s2 s_endog]; destruct (Z.ltb_spec p 0); [lia|]; rewrite <- Em; reflexivity. }
  apply (autocorr_shows F kind s2 _ _ _ _ _ Sd p _ Hp) in E2; injection E2 as ->; cbn [s_endog s2].
  split; [reflexivity|]; split.
  { unfold grid; cbn [t_rows]; rewrite map_map; cbn [fst]; apply (nth_ext _ _ ""%string ""%string); [rewrite map_length, seq_length; reflexivity|].
    intros i Hi; rewrite map_length, seq_length in Hi; rewrite (nth_indep _ _ (nth 0 (s_endog F s) ""%string)) by (rewrite map_length, seq_length; exact Hi).
    rewrite (map_nth (fun i => nth i (s_endog F s) ""%string)), seq_nth by exact Hi; reflexivity. }
  intros v i x Hv Hi Hx R y u LR Fo St d; rewrite <- (lag_column (Z.to_nat p) i Hi) in Hx.
  apply grid_entry in Hx; [|exact Nn|apply lag_columns|lia|rewrite map_length, seq_length; exact Hi]; subst x.
  destruct (H i Hi) as (h & Eh & Hh); unfold auto; rewrite Eh; exact (Hh R y u LR Fo St d v v Hv Hv).
Qed.
Print Assumptions C85_autocorrelations_partial.

(** The column "var" holds the variances if [sqrt] takes square roots of them, and the column
    "mean" of a first-order solution the steady state. *)
Theorem C85_moments :
  forall (F : Type) (O : rops F) (kind : F -> fkind) (lyap : nat -> mat F -> mat F -> res (mat F)) (lsolve : nat -> mat F -> vec F -> res (vec F)) (sqrt : F -> F)
    (g : rule F) (m : smodel F) gy gu (s : stats F) (t : table F),
  is_ring O -> solves_lyapunov F O lyap -> has_rule F g m (First gy gu) -> 1 < rn g -> stable F O g ->
  NoDup (s_endog F s) -> List.length (s_endog F s) = rn g -> List.length (m_ss m) = rn g ->
  s_mean F s = mean F O lyap lsolve (Ok tt) m (First gy gu) -> s_std F s = std F O lyap sqrt (Ok tt) m (First gy gu) ->
  moments_str F kind (rmul O) s = Ok (Shown F t) ->
  forall v x, v < rn g ->
  (entry F t (nth v (s_endog F s) ""%string) "mean" x -> x = nth v (m_ss m) (r0 O)) /\
  (forall (R : randoms F) y u, lawful F O R -> follows F O R g (m_sigma m) y u -> stationary F R g y -> forall d,
   (entry F t (nth v (s_endog F s) ""%string) "std dev" x -> x = sqrt (covariance R (y d v) (y d v))) /\
   (rmul O (sqrt (covariance R (y d v) (y d v))) (sqrt (covariance R (y d v) (y d v))) = covariance R (y d v) (y d v) ->
    entry F t (nth v (s_endog F s) ""%string) "var" x -> x = covariance R (y d v) (y d v))).
Proof.
  intros F O kind lyap lsolve sqrt g m gy gu s t RT HL HR Hn Sb Nn Ln Lm Em Es E v x Hv.
  destruct (cov F O lyap (Ok tt) m (First gy gu)) as [c|] eqn:Ec.
  2: { unfold moments_str in E; rewrite Em, Es in E; unfold std, var in E; rewrite Ec in E; discriminate E. }
  destruct (C44_partial F O lyap g m (First gy gu) c RT HL HR Hn Sb Ec) as (Cv & -> & HC & _).
  assert (Es' : s_std F s = Ok (V1 (List.length (s_endog F s)) (fun i => sqrt (Cv i i)))).
  { rewrite Es; unfold std, var; rewrite Ec; cbn [bind diag nmap]; rewrite Nat.min_id, Ln; reflexivity. }
  assert (Em' : s_mean F s = Ok (V1 (List.length (s_endog F s)) (get F O (m_ss m)))) by (rewrite Em; unfold mean; rewrite Lm, Ln; reflexivity).
  set (n := List.length (s_endog F s)) in *.
  set (s2 := Stats F (s_endog F s) [] (s_mean F s) (s_std F s) (Ok (M2 n n (fun _ _ => r0 O)))
    (fun q => if (q <? 0)%Z then Err ValueErr else Ok (map (fun i => M2 n n (fun _ _ => r0 O)) (seq 0 (Z.to_nat q)))) (Ok (M2 n 0 (fun _ _ => r0 O)))).
  assert (Sd : shaped F s2 (get F O (m_ss m)) (fun i => sqrt (Cv i i)) (fun _ _ => r0 O) (fun _ _ _ => r0 O) (fun _ _ => r0 O)).
  { constructor; cbn; try assumption; try reflexivity; intros q Hq; [destruct (Z.ltb_spec q 0); [lia|reflexivity]|destruct (Z.ltb_spec q 0); [reflexivity|lia]]. }
  change (moments_str F kind (rmul O) s2 = Ok (Shown F t)) in E.
  apply (moments_shows F kind (rmul O) s2 _ _ _ _ _ Sd) in E; injection E as ->; cbn [s_endog s2].
  assert (Nc : NoDup ["mean"; "std dev"; "var"]%string) by (repeat constructor; cbn [In]; intuition discriminate).
  split; [|intros R y u LR Fo St d; split; [|intros Sq]]; intros Hx.
  - apply (grid_entry F _ (s_endog F s) ["mean"; "std dev"; "var"]%string _ v 0 x Nn Nc) in Hx; [exact Hx|fold n; lia|cbn; lia].
  - apply (grid_entry F _ (s_endog F s) ["mean"; "std dev"; "var"]%string _ v 1 x Nn Nc) in Hx; [|fold n; lia|cbn; lia].
    rewrite Hx; cbn [moment]; rewrite (HC R y u LR Fo St d v v Hv Hv); reflexivity.
  - apply (grid_entry F _ (s_endog F s) ["mean"; "std dev"; "var"]%string _ v 2 x Nn Nc) in Hx; [|fold n; lia|cbn; lia].
    rewrite Hx; cbn [moment]; rewrite (HC R y u LR Fo St d v v Hv Hv); exact Sq.
Qed.
Print Assumptions C85_moments.

(** ** Examples and refutations *)

Lemma argsort_sorts l : Permutation (argsort l) (seq 0 (List.length l)) /\
  forall d, StronglySorted (fun i j => nth i l d <= nth j l d) (argsort l).
Proof.
  unfold argsort; destruct (sort_spec (combine l (seq 0 (List.length l)))) as (P & S); set (s := fold_right insert_by [] _) in *.
  assert (K : forall a i, In (a, i) s -> forall d, nth i l d = a).
  { intros a i H d; apply (Permutation_in _ P), In_nth_error in H as (p & H); apply combine_nth_error in H as [H ->]; exact (nth_error_nth _ _ _ H). }
  split.
  - rewrite (Permutation_map snd P); clear; generalize 0; induction l as [|a l IH]; intros k; [reflexivity|]; cbn [List.length seq combine map snd]; constructor; apply IH.
  - intros d; clear P; induction s as [|(a, i) s IH]; cbn [map snd]; [constructor|]; inversion S as [|? ? S1 S2]; subst; constructor.
    + apply IH; [exact S1|intros b j H; apply K; right; exact H].
    + apply Forall_forall; intros j Hj; apply in_map_iff in Hj as ((b & j') & <- & Hj); cbn [snd].
      rewrite (K a i (or_introl eq_refl)), (K b j' (or_intror Hj)); rewrite Forall_forall in S2; apply S2; cbn [fst]; exact (in_map fst _ _ Hj).
Qed.

Definition nat_kind (x : nat) : fkind := match x with 0 => KZero | _ => KFinite end.
Definition ex_named : list (string * list Z) := [("c", [0; 1]); ("k", [-1; 0]); ("y", [0])]%Z%string.
Definition ex_view (calib : list (string * nat)) (Sg : nat -> nat -> nat) (stoch : list string) : view nat nat :=
  View nat nat ["c"; "k"; "y"]%string stoch
    (match index_manager ex_named (List.length stoch) with Ok x => x | Err _ => Indexes [] [] [] 0 0 end) (Ok [3; 0; 2]) (Ok Sg) calib.
Definition ex_calib : list (string * nat) := [("beta", 9); ("d", 0); ("alpha", 3)]%string.
Definition ex_sigma (i j : nat) : nat := if i =? j then S i else 0.
Definition ex_keys (p : params_arg) (o : only_arg) : model_keys := ModelKeys true true true p o.
Definition ex_summary p o v := model_summary nat nat_kind nat (fun x => x) (fun _ => 0) (fun x => x) argsort (ex_keys p o) v.

Example C85_model_nonvacuous :
  NoDup (map fst ex_named) /\ in_range (map snd ex_named) /\
  index_manager ex_named 2 = Ok (v_indexes nat nat (ex_view ex_calib ex_sigma ["e"; "f"]%string)) /\
  ex_summary (ParamsText "all") (OnlyText "") (ex_view ex_calib ex_sigma ["e"; "f"]%string) =
  Ok [Counts nat [("variables", 3); ("stochastic shocks", 2); ("state vars", 1); ("forward-looking vars", 1); ("static vars", 1)]%string;
      Shown nat (Table nat "steady-state eigenvalues:" ["real"; "imag"; "mod"] [("", [0; 0; 0]); ("", [2; 0; 2]); ("", [3; 0; 3])]);
      Shown nat (Table nat "covariance of stoch shocks:" ["e"; "f"] [("e", [1; 0]); ("f", [0; 2])]);
      Shown nat (Table nat "model calibration:" [] [("beta", [9]); ("d", [0]); ("alpha", [3])])]%string /\
  ex_summary (ParamsMany ["alpha"; "beta"; "alpha"]%string) (OnlyMany ["params"; "stoch"]%string) (ex_view ex_calib ex_sigma ["e"; "f"]%string) =
  Ok [Shown nat (Table nat "partial model calibration:" [] [("alpha", [3]); ("beta", [9])]);
      Shown nat (Table nat "covariance of stoch shocks:" ["e"; "f"] [("e", [1; 0]); ("f", [0; 2])])]%string.
Proof.
  split; [repeat constructor; cbn [In]; intuition discriminate|]; split; [repeat constructor; try discriminate; try lia|].
  split; [reflexivity|]; split; vm_compute; reflexivity.
Qed.

(** An iterator of features shows nothing; a parameter is not found by its name; the summary
    of a model without parameters, without shocks, or whose shocks have no variance, is not
    printed. *)
Theorem C85_refuted :
  (exists v, asks ["variables"; "eigen"; "stoch"; "params"]%string (OnlyOnce ["variables"; "stoch"]%string) ["variables"; "stoch"]%string /\
     ex_summary (ParamsText "all") (OnlyOnce ["variables"; "stoch"]%string) v = Ok []) /\
  (exists v, wants_params nat (v_calib nat nat v) (ParamsText "beta") "partial model calibration:" [("beta"%string, 9)] /\
     ex_summary (ParamsText "beta") (OnlyText "params") v = Err KeyErr) /\
  ex_summary (ParamsText "all") (OnlyText "") (ex_view [] ex_sigma ["e"; "f"]%string) = Err ValueErr /\
  ex_summary (ParamsText "all") (OnlyText "") (ex_view ex_calib ex_sigma []) = Err ValueErr /\
  ex_summary (ParamsText "all") (OnlyText "") (ex_view ex_calib (fun _ _ => 0) ["e"; "f"]%string) = Err OverflowErr.
Proof.
  split; [exists (ex_view ex_calib ex_sigma ["e"; "f"]%string); split; [constructor; intros f [<-|[<-|[]]]; cbn; auto|reflexivity]|].
  split; [exists (ex_view ex_calib ex_sigma ["e"; "f"]%string); split; [constructor; [discriminate|reflexivity]|reflexivity]|].
  repeat split; vm_compute; reflexivity.
Qed.
Print Assumptions C85_refuted.

(** Printing the parameters of a model: every one of them, in order, with its value. *)
Theorem C85_calibration :
  forall (F : Type) (kind : F -> fkind) (C : Type) (v : view F C),
  (forall t, calibration_str F kind C v = Ok t ->
     t = Table F "ModelCalibration" [] (map (fun q => (fst q, [snd q])) (v_calib F C v))) /\
  ((exists t, calibration_str F kind C v = Ok t) <-> printable F kind (fun x => In x (map snd (v_calib F C v)))).
Proof.
  intros F kind C v; split; [intros t; exact (print_ok F kind _ _ t)|exact (print_runs F kind _ _)].
Qed.
Print Assumptions C85_calibration.
Example C85_calibration_nonvacuous :
  calibration_str nat nat_kind nat (ex_view ex_calib ex_sigma []) =
  Ok (Table nat "ModelCalibration" [] [("beta", [9]); ("d", [0]); ("alpha", [3])])%string.
Proof. reflexivity. Qed.

(** A text that names parameters, other than "all", is read letter by letter: the summary is
    the one for the list of its letters. *)
Theorem C85_letters :
  forall (F : Type) (kind : F -> fkind) (C : Type) (re im modulus : C -> F) (argsort : list F -> list nat)
    (v : view F C) (bv be bs : bool) (o : only_arg) (s : string) (l : list string),
  s <> "all"%string -> (forall x, In x l -> String.length x = 1) -> String.concat "" l = s ->
  model_summary F kind C re im modulus argsort (ModelKeys bv be bs (ParamsText s) o) v =
  model_summary F kind C re im modulus argsort (ModelKeys bv be bs (ParamsMany l) o) v.
Proof.
  intros F kind C re im modulus argsort v bv be bs o s l N Hl E.
  assert (L : letters s = l).
  { subst s; clear N; induction l as [|x l IH]; [reflexivity|].
    assert (Hx := Hl x (or_introl eq_refl)); destruct x as [|a [|]]; try discriminate Hx.
    assert (IH' := IH (fun y h => Hl y (or_intror h))).
    destruct l as [|y l]; [reflexivity|]; cbn [String.concat append]; cbn [letters]; f_equal; exact IH'. }
  assert (T : params_true (ParamsText s) = params_true (ParamsMany l)).
  { rewrite <- L; destruct s; reflexivity. }
  assert (P : params_str F kind C (ParamsText s) v = params_str F kind C (ParamsMany l) v).
  { unfold params_str; destruct (String.eqb_spec s "all") as [|_]; [contradiction|]; rewrite L; reflexivity. }
  unfold model_summary; cbn [k_only]; destruct (chosen model_features o) as [only|e]; [|reflexivity]; cbn [bind].
  assert (G : mapM (model_block F kind C re im modulus argsort (ModelKeys bv be bs (ParamsText s) o) v) only =
              mapM (model_block F kind C re im modulus argsort (ModelKeys bv be bs (ParamsMany l) o) v) only).
  { clear - T P; induction only as [|f only IH]; cbn [mapM]; [reflexivity|]; rewrite IH.
    unfold model_block at 1 3; cbn [k_variables k_eigen k_stoch k_params]; rewrite T, P; reflexivity. }
  rewrite G; reflexivity.
Qed.
Print Assumptions C85_letters.
Example C85_letters_nonvacuous :
  String.concat "" ["b"; "d"]%string = "bd"%string /\
  ex_summary (ParamsText "bd") (OnlyText "params") (ex_view [("d", 1); ("b", 2)]%string ex_sigma []) =
  Ok [Shown nat (Table nat "partial model calibration:" [] [("b", [2]); ("d", [1])])]%string.
Proof. split; vm_compute; reflexivity. Qed.

Definition ex_stats : stats nat :=
  Stats nat ["a"; "b"]%string ["e"; "f"]%string (Ok (V1 2 (fun i => i))) (Ok (V1 2 (fun i => 2 + i))) (Ok (M2 2 2 (fun i j => if i =? j then 1 else 0)))
    (fun p => if (p <? 0)%Z then Err ValueErr else Ok (map (fun i => M2 2 2 (fun a b => 10 * i + a)) (seq 0 (Z.to_nat p)))) (Ok (M2 2 2 (fun i j => 1))).
Example C85_statistics_nonvacuous :
  shaped nat ex_stats (fun i => i) (fun i => 2 + i) (fun i j => if i =? j then 1 else 0) (fun i a b => 10 * i + a) (fun i j => 1) /\
  stats_summary nat nat_kind Nat.mul (StatsKeys true true 2 false (OnlyText "")) ex_stats =
  Ok [Shown nat (Table nat "model moments:" ["mean"; "std dev"; "var"] [("a", [0; 2; 4]); ("b", [1; 3; 9])]);
      Shown nat (Table nat "correlation:" ["a"; "b"] [("a", [1; 0]); ("b", [0; 1])]);
      Shown nat (Table nat "autocovariance of endogenous variables:" ["p = 0"; "p = 1"] [("a", [0; 10]); ("b", [1; 11])])]%string.
Proof.
  split; [|vm_compute; reflexivity].
  constructor; try reflexivity; intros p Hp; cbn; [destruct (Z.ltb_spec p 0); [lia|reflexivity]|destruct (Z.ltb_spec p 0); [reflexivity|lia]].
Qed.

(** z = z(-1)/2 + e, y = z(-1) + 2 e, with a variance of 3 for e: the standard deviations
    are 2 and 4. *)
Definition ar2 : rule Qc := one_state 1 (r 1 2) (r 1 1) (fun _ => r 1 1) (fun _ => r 2 1).
Definition ar2_model : smodel Qc := SModel [r 1 1; r 2 1] [1; 0] [0] ["e"%string] (MomentsExample.diagonal (fun _ => r 3 1)).
Definition ar2_sol : lsol Qc := First (gy_of ar2) (gu_of ar2).
Definition ar2_R := R ar2 (fun _ => r 3 1) (fun _ => r 4 1).
Definition ar2_y := later (run ar2 (fun _ => r 3 1) (fun _ => r 4 1)).
Definition ar2_u := later (eps ar2 (fun _ => r 3 1) (fun _ => r 4 1)).
Definition root (x : Qc) : Qc := if Qc_eq_dec x (r 4 1) then r 2 1 else if Qc_eq_dec x (r 16 1) then r 4 1 else x.
Definition q_kind (x : Qc) : fkind := if Qc_eq_dec x (Q2Qc 0) then KZero else KFinite.
Definition ar2_stats : stats Qc :=
  Stats Qc ["y"; "z"]%string ["e"%string] (mean Qc QO lyapD (fun _ _ b => Ok b) (Ok tt) ar2_model ar2_sol) (std Qc QO lyapD root (Ok tt) ar2_model ar2_sol)
    (corr Qc QO lyapD root (Ok tt) ar2_model ar2_sol) (autocorr Qc QO lyapD root (Ok tt) ar2_model ar2_sol) (Ok (M2 2 1 (fun _ _ => r 1 1))).
Lemma ar2_rule : has_rule Qc ar2 ar2_model ar2_sol.
Proof. split; [apply one_state_proper; lia|]; repeat split. Qed.
Lemma ar2_stable : stable Qc QO ar2.
Proof. apply one_state_stable; apply same_neq; vm_compute; reflexivity. Qed.
Lemma ar2_process : lawful Qc QO ar2_R /\ follows Qc QO ar2_R ar2 (m_sigma ar2_model) ar2_y ar2_u /\ stationary Qc ar2_R ar2 ar2_y.
Proof.
  split; [apply space_lawful|].
  split; [apply later_follows; apply ar2_rule|apply later_stationary; [apply ar2_rule|]].
  intros i j Hi Hj; cbn in Hi, Hj; replace i with 0 by lia; replace j with 0 by lia; apply same_eq; vm_compute; reflexivity.
Qed.
Definition q_table (t : res (block Qc)) : res (list string * list (string * list Q)) :=
  match t with Ok (Shown _ t) => Ok (t_columns Qc t, map (fun p => (fst p, map this (snd p))) (t_rows Qc t)) | Ok _ => Err AttrErr | Err e => Err e end.

(** The column "p = 0" does not hold the correlation of a variable with itself, which is 1. *)
Theorem C85_lag_refuted :
  has_rule Qc ar2 ar2_model ar2_sol /\ stable Qc QO ar2 /\ lawful Qc QO ar2_R /\ follows Qc QO ar2_R ar2 (m_sigma ar2_model) ar2_y ar2_u /\ stationary Qc ar2_R ar2 ar2_y /\
  s_autocorr Qc ar2_stats 3 = autocorr Qc QO lyapD root (Ok tt) ar2_model ar2_sol 3 /\
  (forall v, v < 2 -> rmul QO (root (covariance ar2_R (ar2_y 0 v) (ar2_y 0 v))) (root (covariance ar2_R (ar2_y 0 v) (ar2_y 0 v))) = covariance ar2_R (ar2_y 0 v) (ar2_y 0 v)) /\
  exists t x, autocorr_str Qc q_kind 3 ar2_stats = Ok (Shown Qc t) /\ entry Qc t "z" "p = 0" x /\
    x <> rdiv QO (covariance ar2_R (ar2_y 0 1) (ar2_y 0 1)) (rmul QO (root (covariance ar2_R (ar2_y 0 1) (ar2_y 0 1))) (root (covariance ar2_R (ar2_y 0 1) (ar2_y 0 1)))).
Proof.
  destruct ar2_process as (P1 & P2 & P3).
  split; [exact ar2_rule|]; split; [exact ar2_stable|]; split; [exact P1|]; split; [exact P2|]; split; [exact P3|]; split; [reflexivity|]; split.
  { intros v Hv; destruct v as [|[|v]]; [| |lia]; apply same_eq; vm_compute; reflexivity. }
  destruct (autocorr_str Qc q_kind 3 ar2_stats) as [[c|t]|] eqn:E;
    [apply (f_equal q_table) in E; vm_compute in E; discriminate E| |apply (f_equal q_table) in E; vm_compute in E; discriminate E].
  assert (Hx : exists x, entry Qc t "z" "p = 0" x).
  { apply (f_equal q_table) in E; vm_compute in E; injection E as Ec Er; destruct t as [tt cs rs]; cbn [t_columns t_rows] in Ec, Er; subst cs.
    destruct rs as [|q0 [|(q1, l1) rs]]; try discriminate Er; cbn [map fst snd] in Er; injection Er as _ _ En El _.
    subst q1; destruct l1 as [|x l1]; [discriminate El|]; exists x, 1, 0, (x :: l1); repeat split; reflexivity. }
  destruct Hx as (x & Hx); exists t, x; split; [reflexivity|]; split; [exact Hx|].
  assert (Nn : NoDup (s_endog Qc ar2_stats)) by (repeat constructor; cbn [In s_endog ar2_stats]; intuition discriminate).
  destruct (C85_autocorrelations_partial Qc QO q_kind lyapD root ar2 ar2_model ar2_sol ar2_stats 3 t Q_ring lyapD_solves ar2_rule (le_n 2) ar2_stable Nn eq_refl eq_refl ltac:(lia) E) as (_ & _ & H).
  rewrite (H 1 0 x ltac:(cbn; lia) ltac:(cbn; lia) Hx ar2_R ar2_y ar2_u P1 P2 P3 0).
  apply same_neq; vm_compute; reflexivity.
Qed.
Print Assumptions C85_lag_refuted.
Example C85_autocorrelations_nonvacuous :
  q_table (autocorr_str Qc q_kind 3 ar2_stats) =
    Ok (["p = 0"; "p = 1"; "p = 2"], [("y", [Qmake 1 2; Qmake 1 4; Qmake 1 8]); ("z", [Qmake 1 2; Qmake 1 4; Qmake 1 8])])%string /\
  q_table (moments_str Qc q_kind (rmul QO) ar2_stats) =
    Ok (["mean"; "std dev"; "var"], [("y", [Qmake 1 1; Qmake 4 1; Qmake 16 1]); ("z", [Qmake 2 1; Qmake 2 1; Qmake 4 1])])%string.
Proof. split; vm_compute; reflexivity. Qed.
