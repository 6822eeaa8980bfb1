(** Arrangement of plots: property C56. *)
From Verif Require Import Base Plot PlotSpec.

(** ** The factors *)

Lemma factor_from_ok n v : 1 <= n -> 1 <= v ->
  exists v1 v2, factor_from n v = Ok (v1, v2) /\ 1 <= v1 <= v /\ v1 * v2 = n /\
    forall d, Nat.divide d n -> d <= v -> d <= v1.
Proof.
  intros Hn; induction v as [|v IH]; intros Hv; [lia|]; cbn [factor_from].
  destruct (Nat.eqb_spec (n / S v * S v) n) as [E|E].
  - exists (S v), (n / S v); split; [reflexivity|]; repeat split; try lia.
  - assert (Hv' : 1 <= v) by (destruct v; [rewrite Nat.div_1_r in E; lia|lia]).
    destruct (IH Hv') as (v1 & v2 & -> & A & B & C); exists v1, v2; split; [reflexivity|].
    split; [lia|]; split; [exact B|]; intros d [q Hq] Hd.
    destruct (Nat.eq_dec d (S v)) as [->|]; [|apply C; [exists q; exact Hq|lia]].
    exfalso; apply E; rewrite Hq at 1; rewrite Nat.div_mul by lia; lia.
Qed.

Lemma sqrt_up_pos n : 1 <= n -> 1 <= Nat.sqrt_up n.
Proof. intros H; apply Nat.sqrt_up_le_mono in H; exact H. Qed.

(** The numbers of columns and rows multiply to the number of series, and the number of
    columns is the largest divisor up to the ceiling of the root. *)
Theorem C56_factors :
  forall n, 1 <= n ->
  exists v1 v2, factor n = Ok (v1, v2) /\ v1 * v2 = n /\ 1 <= v1 /\ v1 <= Nat.sqrt_up n /\
    forall d, Nat.divide d n -> d <= Nat.sqrt_up n -> d <= v1.
Proof.
  intros n Hn; destruct (factor_from_ok n (Nat.sqrt_up n) Hn (sqrt_up_pos n Hn)) as (v1 & v2 & E & A & B & C).
  exists v1, v2; repeat split; try lia; [exact E|exact C].
Qed.
Print Assumptions C56_factors.

(** ** Drawing *)

Lemma every_In s : 1 <= s -> forall n a k x, In x (every s k (seq a n)) <-> exists j, x = a + k + s * j /\ x < a + n.
Proof.
  intros Hs n; induction n as [|n IH]; intros a k x; cbn [seq every].
  - split; [intros []|intros (j & ? & ?); lia].
  - destruct k as [|k].
    + cbn [In]; rewrite IH; split.
      * intros [E|(j & E & L)]; [exists 0; rewrite Nat.mul_0_r; lia|exists (S j); rewrite Nat.mul_succ_r; lia].
      * intros ([|j] & E & L); [left; rewrite Nat.mul_0_r in E; lia|right; exists j; rewrite Nat.mul_succ_r in E; lia].
    + rewrite IH; split; intros (j & E & L); exists j; lia.
Qed.
Lemma every_sub {A} s (l : list A) : forall k x, In x (every s k l) -> In x l.
Proof.
  induction l as [|a l IH]; intros k x; cbn [every]; [intros []|].
  destruct k; cbn [In]; [intros [->|H]; [auto|right; exact (IH _ _ H)]|intros H; right; exact (IH _ _ H)].
Qed.
Lemma every_NoDup {A} s (l : list A) : NoDup l -> forall k, NoDup (every s k l).
Proof.
  induction 1 as [|a l N D IH]; intros k; cbn [every]; [constructor|].
  destruct k; [constructor; [intros H; apply N; exact (every_sub _ _ _ _ H)|apply IH]|apply IH].
Qed.
Lemma every_map {A B} (f : A -> B) s l : forall k, every s k (map f l) = map f (every s k l).
Proof. induction l as [|a l IH]; intros [|k]; cbn [every map]; [reflexivity..|rewrite IH; reflexivity|apply IH]. Qed.
Lemma nth_seq (l : list string) : l = map (fun i => nth i l EmptyString) (seq 0 (List.length l)).
Proof.
  induction l as [|a l IH]; [reflexivity|]; cbn [List.length seq map nth]; f_equal.
  rewrite <- seq_shift, map_map; exact IH.
Qed.
Lemma NoDup_concat {A B} (f : A -> list B) l : NoDup l -> (forall a, In a l -> NoDup (f a)) ->
  (forall a b x, In a l -> In b l -> In x (f a) -> In x (f b) -> a = b) -> NoDup (concat (map f l)).
Proof.
  induction 1 as [|a l N D IH]; intros H1 H2; cbn [map concat]; [constructor|].
  assert (X : forall x, In x (f a) -> ~ In x (concat (map f l))).
  { intros x Ha Hc; apply in_concat in Hc as (y & Hy & Hx); apply in_map_iff in Hy as (b & <- & Hb).
    apply N; rewrite (H2 a b x (or_introl eq_refl) (or_intror Hb) Ha Hx); exact Hb. }
  assert (Y : NoDup (concat (map f l))).
  { apply IH; [intros b Hb; apply H1; right; exact Hb|intros b c x Hb Hc; apply H2; right; assumption]. }
  specialize (H1 a (or_introl eq_refl)); induction (f a) as [|y ys IHy]; [exact Y|]; cbn [app].
  inversion H1 as [|? ? N1 D1]; subst; constructor.
  - intros Hi; apply in_app_or in Hi as [Hi|Hi]; [exact (N1 Hi)|exact (X y (or_introl eq_refl) Hi)].
  - apply IHy; [exact D1|intros x Hx; apply X; right; exact Hx].
Qed.

Lemma NoDup_map_in {A B} (f : A -> B) l : NoDup l -> (forall a b, In a l -> In b l -> f a = f b -> a = b) -> NoDup (map f l).
Proof.
  induction 1 as [|a l N D IH]; intros H; cbn [map]; constructor.
  - intros Hi; apply in_map_iff in Hi as (b & E & Hb); apply N; rewrite (H a b (or_introl eq_refl) (or_intror Hb) (eq_sym E)); exact Hb.
  - apply IH; intros b c Hb Hc; apply H; right; assumption.
Qed.

Lemma grid_once r c n labels : 1 <= r -> 1 <= c -> List.length labels = n -> each_once n labels (plot_grid r c n labels).
Proof.
  intros Hr Hc HL; unfold plot_grid; set (s := r * c); assert (Hs : 1 <= s) by (unfold s; nia).
  assert (HM : forall k, In k (seq 0 (Nat.min s n)) -> k < s /\ k < n) by (intros k Hk; apply in_seq in Hk; lia).
  unfold each_once; repeat split.
  - unfold cells; rewrite map_map; cbn [fst].
    apply NoDup_map_in; [apply seq_NoDup|].
    intros a b Ha Hb E; apply HM in Ha as [Ha _]; apply HM in Hb as [Hb _]; rewrite (Nat.mod_small a s), (Nat.mod_small b s) in E by assumption.
    injection E as E1 E2; rewrite (Nat.div_mod_eq a c), (Nat.div_mod_eq b c), E1, E2; reflexivity.
  - rewrite map_map; unfold series; cbn [fst snd]; apply NoDup_Permutation; [|apply seq_NoDup|].
    + apply NoDup_concat; [apply seq_NoDup|intros; apply every_NoDup, seq_NoDup|].
      intros a b x Ha Hb Hxa Hxb; apply HM in Ha as [Ha _]; apply HM in Hb as [Hb _].
      apply (every_In s Hs) in Hxa as (j & E & _); apply (every_In s Hs) in Hxb as (j' & E' & _).
      rewrite <- (Nat.mod_small a s), <- (Nat.mod_small b s) by assumption.
      replace (a mod s) with (x mod s); [replace (b mod s) with (x mod s); [reflexivity|]|].
      * subst x; rewrite E'; replace (0 + b + s * j') with (b + j' * s) by lia; apply Nat.mod_add; lia.
      * rewrite E; replace (0 + a + s * j) with (a + j * s) by lia; apply Nat.mod_add; lia.
    + intros x; rewrite in_concat; split.
      * intros (y & Hy & Hx); apply in_map_iff in Hy as (k & <- & Hk); exact (every_sub _ _ _ _ Hx).
      * intros Hx; exists (every s (x mod s) (seq 0 n)); split.
        { apply in_map_iff; exists (x mod s); split; [reflexivity|]; apply in_seq.
          apply in_seq in Hx; pose proof (Nat.mod_upper_bound x s ltac:(lia)); pose proof (Nat.mod_le x s ltac:(lia)); lia. }
        { apply (every_In s Hs); exists (x / s); apply in_seq in Hx; split; [|lia].
          rewrite Nat.add_0_l, Nat.add_comm; apply Nat.div_mod; lia. }
  - intros d Hd; apply in_map_iff in Hd as (k & <- & Hk); unfold legend, series; cbn [fst snd].
    rewrite (nth_seq labels) at 1; rewrite every_map, HL; reflexivity.
Qed.

Lemma column_ok m n labels : List.length labels = n ->
  plot_column m n labels = Ok (map (fun k => (At1 k, [k], [nth k labels EmptyString])) (seq 0 (Nat.min m n))).
Proof.
  intros HL; unfold plot_column.
  assert (X : forall l, (forall k, In k l -> k < n) ->
    mapM (fun k => match nth_error labels k with Some l => Ok (At1 k, [k], [l]) | None => Err IndexErr end) l =
    Ok (map (fun k => (At1 k, [k], [nth k labels EmptyString])) l)).
  { induction l as [|k l IH]; intros H; [reflexivity|]; cbn [mapM map].
    rewrite (nth_error_nth' labels EmptyString) by (rewrite HL; apply H; left; reflexivity); cbn [bind].
    rewrite IH by (intros k' Hk'; apply H; right; exact Hk'); reflexivity. }
  apply X; intros k Hk; apply in_seq in Hk; lia.
Qed.
Lemma singles (l : list nat) : concat (map (fun k => [k]) l) = l.
Proof. induction l as [|a l IH]; [reflexivity|]; cbn; rewrite IH; reflexivity. Qed.
Lemma column_once m n labels : List.length labels = n ->
  exists ds, plot_column m n labels = Ok ds /\ (each_once n labels ds <-> n <= m) /\
    concat (map series ds) = seq 0 (Nat.min m n) /\ cells ds = map At1 (seq 0 (Nat.min m n)).
Proof.
  intros HL; eexists; split; [exact (column_ok m n labels HL)|].
  unfold each_once, cells; rewrite !map_map; unfold series; cbn [fst snd]; rewrite singles.
  split; [split|split; reflexivity].
  - intros (_ & P & _); apply Permutation_length in P; rewrite !seq_length in P; lia.
  - intros H; rewrite Nat.min_r by exact H; split; [apply NoDup_map_in; [apply seq_NoDup|intros a b _ _ E; injection E; trivial]|].
    split; [reflexivity|]; intros d Hd; apply in_map_iff in Hd as (k & <- & _); reflexivity.
Qed.

(** Two or more series in the default layout: the figure has one cell per series, each
    series is drawn once, in a cell of its own, under its own label. *)
Theorem C56_rect_partial :
  forall n labels, 2 <= n -> List.length labels = n ->
  exists r c ds, grid_shape (LText "rect") n = Ok (r, c) /\ r * c = n /\
    arrange n labels true (LText "rect") (Keywords None None true) = Ok ds /\
    each_once n labels ds /\ List.length ds = r * c /\ (forall x, In x (cells ds) -> in_figure r c x) /\
    Forall (fun d => List.length (series d) = 1) ds.
Proof.
  intros n labels Hn HL; destruct (C56_factors n ltac:(lia)) as (v1 & v2 & E & M & P1 & _).
  exists v2, v1; unfold arrange, grid_shape; cbn [String.eqb Ascii.eqb Bool.eqb]; rewrite E; cbn [bind fst snd].
  unfold subplots; cbn [k_rows k_cols k_squeeze].
  assert (P2 : 1 <= v2) by nia.
  rewrite (proj2 (Nat.eqb_neq v2 0)), (proj2 (Nat.eqb_neq v1 0)) by lia; cbn [orb].
  assert (N11 : (v2 =? 1) && (v1 =? 1) = false).
  { destruct (Nat.eqb_spec v2 1), (Nat.eqb_spec v1 1); try reflexivity; nia. }
  rewrite N11; destruct ((v2 =? 1) || (v1 =? 1)) eqn:L1; cbn [bind].
  - destruct (column_once (v2 * v1) n labels HL) as (ds & E1 & O1 & S1 & C1); exists ds.
    split; [reflexivity|]; split; [lia|]; split; [exact E1|]; split; [apply O1; nia|].
    assert (E2 := column_ok (v2 * v1) n labels HL); rewrite E1 in E2; injection E2 as ->.
    split; [rewrite map_length, seq_length; nia|]; split.
    + rewrite C1; intros x Hx; apply in_map_iff in Hx as (k & <- & Hk); apply in_seq in Hk; cbn.
      split; [|lia]; apply Bool.orb_true_iff in L1 as [L1|L1]; apply Nat.eqb_eq in L1; auto.
    + apply Forall_forall; intros d Hd; apply in_map_iff in Hd as (k & <- & _); reflexivity.
  - eexists; split; [reflexivity|]; split; [lia|]; split; [reflexivity|]; split; [apply grid_once; assumption|].
    unfold plot_grid; rewrite map_length, seq_length, Nat.min_l by lia; split; [reflexivity|]; split.
    + unfold cells; rewrite map_map; cbn [fst]; intros x Hx; apply in_map_iff in Hx as (k & <- & Hk); apply in_seq in Hk; cbn.
      rewrite Nat.mod_small by lia; split; [apply Nat.div_lt_upper_bound; lia|apply Nat.mod_upper_bound; lia].
    + apply Forall_forall; intros d Hd; apply in_map_iff in Hd as (k & <- & Hk); apply in_seq in Hk; unfold series; cbn [fst snd].
      assert (NI := every_NoDup (v2 * v1) (seq 0 n) (seq_NoDup n 0) k).
      assert (AI := every_In (v2 * v1) ltac:(lia) n 0 k).
      destruct (every (v2 * v1) k (seq 0 n)) as [|a [|b l]]; [|reflexivity|].
      * exfalso; apply (AI k); exists 0; lia.
      * exfalso; inversion NI as [|? ? N1 _]; subst; apply N1; left.
        destruct (proj1 (AI a) (or_introl eq_refl)) as (j & -> & L); destruct (proj1 (AI b) (or_intror (or_introl eq_refl))) as (j' & -> & L').
        assert (j = 0) by nia; assert (j' = 0) by nia; lia.
Qed.
Print Assumptions C56_rect_partial.

Example C56_nonvacuous :
  arrange 6 ["a"; "b"; "c"; "d"; "e"; "f"]%string true (LText "rect") (Keywords None None true) =
    Ok [(At2 0 0, [0], ["a"]); (At2 0 1, [1], ["b"]); (At2 0 2, [2], ["c"]);
        (At2 1 0, [3], ["d"]); (At2 1 1, [4], ["e"]); (At2 1 2, [5], ["f"])]%string.
Proof. vm_compute; reflexivity. Qed.

(** One series cannot be drawn, in any layout with one cell (whatever the layout is called):
    the figure then has a single Axes object, which is not an array. *)
Theorem C56_refuted :
  forall labels, arrange 1 labels true (LText "rect") (Keywords None None true) = Err AttrErr /\
    arrange 1 labels true (LText "square") (Keywords None None true) = Err AttrErr /\
    arrange 1 labels true (LText "column") (Keywords None None true) = Err AttrErr.
Proof. intros labels; repeat split. Qed.
Print Assumptions C56_refuted.

(** Nor can a figure without series, and the layout "row" of the documentation is unknown. *)
Theorem C56_no_series : forall labels k, exists e, arrange 0 labels true (LText "rect") k = Err e.
Proof. intros labels k; exists ValueErr; reflexivity. Qed.
Print Assumptions C56_no_series.
Theorem C56_row_refuted : forall n labels k, arrange n labels true (LText "row") k = Err ValueErr.
Proof. reflexivity. Qed.
Print Assumptions C56_row_refuted.
(** The documentation promises fewer rows than columns. *)
Theorem C56_orientation_refuted :
  ~ (forall n r c, 2 <= n -> grid_shape (LText "rect") n = Ok (r, c) -> r < c).
Proof. intros H; specialize (H 8 4 2 ltac:(lia) eq_refl); lia. Qed.
Print Assumptions C56_orientation_refuted.
(** Rows outnumber columns unless the number of columns is the rounded-up root. *)
Theorem C56_orientation :
  forall n r c, 1 <= n -> grid_shape (LText "rect") n = Ok (r, c) -> c <= r \/ c = S r.
Proof.
  intros n r c Hn; unfold grid_shape; cbn [String.eqb Ascii.eqb Bool.eqb].
  destruct (C56_factors n Hn) as (v1 & v2 & -> & M & P1 & U & _); cbn [bind fst snd]; intros H; injection H as <- <-.
  destruct (Nat.le_gt_cases v1 v2); [left; assumption|right].
  assert (S0 := Nat.sqrt_up_spec n ltac:(lia)); set (q := Nat.sqrt_up n) in *.
  assert (Nat.pred q < v1) by nia; nia.
Qed.
Print Assumptions C56_orientation.

(** Any number of rows and columns, given by the caller or by the layout: the series are
    drawn once each exactly when the figure is a matrix of cells (where a cell takes every
    r*c-th series) or has as many cells as there are series. *)
Theorem C56_every_layout :
  forall n labels l k r c, List.length labels = n -> grid_shape l n = Ok (r, c) ->
  let r' := match k_rows k with Some r0 => r0 | None => r end in
  let c' := match k_cols k with Some c0 => c0 | None => c end in
  ((exists ds, arrange n labels true l k = Ok ds /\ each_once n labels ds) <->
   1 <= r' /\ 1 <= c' /\
   (k_squeeze k = false \/ (2 <= r' /\ 2 <= c') \/ (2 <= r' * c' /\ n <= r' * c'))).
Proof.
  intros n labels l k r c HL E r' c'; unfold arrange; rewrite E; cbn [bind fst snd]; unfold subplots; fold r' c'.
  destruct (Nat.eqb_spec r' 0) as [R0|R0]; [cbn [orb bind]; split; [intros (? & ? & _); discriminate|lia]|].
  destruct (Nat.eqb_spec c' 0) as [C0|C0]; [cbn [orb bind]; split; [intros (? & ? & _); discriminate|lia]|].
  cbn [orb]; destruct (k_squeeze k).
  - destruct (Nat.eqb_spec r' 1) as [R1|R1]; [destruct (Nat.eqb_spec c' 1) as [C1|C1]|destruct (Nat.eqb_spec c' 1) as [C1|C1]];
      cbn [andb orb bind].
    + split; [intros (? & ? & _); discriminate|intros (_ & _ & [H|[H|H]]); [discriminate|lia|nia]].
    + destruct (column_once (r' * c') n labels HL) as (ds & E1 & O1 & _); split.
      * intros (ds' & E2 & O2); rewrite E1 in E2; injection E2 as <-; apply O1 in O2; repeat split; try lia; right; right; nia.
      * intros (_ & _ & [H|[H|H]]); [discriminate|lia|]; exists ds; split; [exact E1|apply O1; lia].
    + destruct (column_once (r' * c') n labels HL) as (ds & E1 & O1 & _); split.
      * intros (ds' & E2 & O2); rewrite E1 in E2; injection E2 as <-; apply O1 in O2; repeat split; try lia; right; right; nia.
      * intros (_ & _ & [H|[H|H]]); [discriminate|lia|]; exists ds; split; [exact E1|apply O1; lia].
    + split; [intros _; repeat split; try lia; right; left; lia|]; intros _; eexists; split; [reflexivity|apply grid_once; lia].
  - split; [intros _; repeat split; try lia; left; reflexivity|]; intros _; eexists; split; [reflexivity|apply grid_once; lia].
Qed.
Print Assumptions C56_every_layout.

(** Without subplots everything is drawn on one set of axes. *)
Theorem C56_single : forall n labels l k, List.length labels = n ->
  k_squeeze k = true -> k_rows k = None -> k_cols k = None ->
  exists ds, arrange n labels false l k = Ok ds /\ each_once n labels ds /\ cells ds = [Whole].
Proof.
  intros n labels l k HL Hs Hr Hc; unfold arrange, subplots; rewrite Hs, Hr, Hc; cbn.
  eexists; split; [reflexivity|]; split; [|reflexivity]; unfold each_once; cbn; rewrite app_nil_r.
  split; [repeat constructor; intros []|]; split; [reflexivity|]; intros d [<-|[]]; unfold legend, series; cbn; rewrite <- HL; apply nth_seq.
Qed.
Print Assumptions C56_single.

(** A line of cells drops the series it has no cell for. *)
Theorem C56_dropped_refuted :
  exists ds, arrange 3 ["a"; "b"; "c"]%string true (LPair 1 2) (Keywords None None true) = Ok ds /\
    ~ In 2 (concat (map series ds)).
Proof. eexists; split; [reflexivity|]; cbn; lia. Qed.
Print Assumptions C56_dropped_refuted.

(** The square layout is the smallest square that holds the series. *)
Theorem C56_square :
  forall n, 1 <= n -> exists s, grid_shape (LText "square") n = Ok (s, s) /\ n <= s * s /\ forall s', n <= s' * s' -> s <= s'.
Proof.
  intros n Hn; exists (square_side n); split; [reflexivity|]; unfold square_side.
  destruct (Nat.sqrt_specif n) as [A B]; set (q := Nat.sqrt n) in *.
  destruct (Nat.ltb_spec (q * q + q) n) as [L|L].
  - destruct (Nat.eqb_spec (S q * S q) n) as [S1|S1]; [nia|]; split; [nia|intros s' Hs'; nia].
  - destruct (Nat.eqb_spec (q * q) n) as [S1|S1]; [split; [nia|intros s' Hs'; nia]|split; [nia|intros s' Hs'; nia]].
Qed.
Print Assumptions C56_square.

(** A layout given as rows and columns fills the rows of the figure from left to right. *)
Theorem C56_pair :
  forall r c n labels, 2 <= r -> 2 <= c -> List.length labels = n ->
  exists ds, arrange n labels true (LPair r c) (Keywords None None true) = Ok ds /\ each_once n labels ds /\
    cells ds = map (fun k => At2 (k / c) (k mod c)) (seq 0 (Nat.min (r * c) n)) /\
    (forall x, In x (cells ds) -> in_figure r c x).
Proof.
  intros r c n labels Hr Hc HL; unfold arrange, subplots; cbn [grid_shape bind fst snd k_rows k_cols k_squeeze].
  rewrite (proj2 (Nat.eqb_neq r 0)), (proj2 (Nat.eqb_neq c 0)), (proj2 (Nat.eqb_neq r 1)), (proj2 (Nat.eqb_neq c 1)) by lia; cbn [orb andb bind].
  assert (E : cells (plot_grid r c n labels) = map (fun k => At2 (k / c) (k mod c)) (seq 0 (Nat.min (r * c) n))).
  { unfold cells, plot_grid; rewrite map_map; apply map_ext_in; intros k Hk; apply in_seq in Hk; cbn [fst].
    rewrite (Nat.mod_small k (r * c)) by lia; reflexivity. }
  eexists; split; [reflexivity|]; split; [apply grid_once; lia|]; split; [exact E|].
  rewrite E; intros x Hx; apply in_map_iff in Hx as (k & <- & Hk); apply in_seq in Hk; cbn.
  split; [apply Nat.div_lt_upper_bound; lia|apply Nat.mod_upper_bound; lia].
Qed.
Print Assumptions C56_pair.
Example C56_pair_nonvacuous :
  arrange 3 ["a"; "b"; "c"]%string true (LPair 3 2) (Keywords None None true) =
    Ok [(At2 0 0, [0], ["a"]); (At2 0 1, [1], ["b"]); (At2 1 0, [2], ["c"])]%string.
Proof. vm_compute; reflexivity. Qed.

(** The column layout has one column, with the series from top to bottom. *)
Theorem C56_column :
  forall n labels, 2 <= n -> List.length labels = n ->
  exists ds, arrange n labels true (LText "column") (Keywords None None true) = Ok ds /\
    ds = map (fun k => (At1 k, [k], [nth k labels EmptyString])) (seq 0 n) /\
    exists rows cols, grid_shape (LText "column") n = Ok (rows, cols) /\ cols = 1 /\ rows = n.
Proof.
  intros n labels Hn HL; exists (map (fun k => (At1 k, [k], [nth k labels EmptyString])) (seq 0 n)).
  split; [|split; [reflexivity|exists n, 1; repeat split]].
  unfold arrange, subplots; cbn [grid_shape String.eqb Ascii.eqb Bool.eqb bind fst snd k_rows k_cols k_squeeze].
  rewrite (proj2 (Nat.eqb_neq n 0)), (proj2 (Nat.eqb_neq n 1)) by lia; cbn [orb andb bind Nat.eqb].
  rewrite column_ok by exact HL; rewrite Nat.mul_1_r, Nat.min_id; reflexivity.
Qed.
Print Assumptions C56_column.
