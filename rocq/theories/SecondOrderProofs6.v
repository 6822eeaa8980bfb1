(** The equations that the second-order solver solves, and those of the model. *)
From Verif Require Import Base Nd NdProofs Mat MatProofs SimSpec SimProofs2 Indexing IndexingSpec IndexingProofs IndexingProofs2 SummaryProofs Moments
  FirstOrder FirstOrderSpec FirstOrderProofs Sylvester SylvesterSpec SecondOrder SecondOrderSpec SecondOrderProofs SecondOrderProofs2 SecondOrderProofs4 SecondOrderProofs5.
From Verif Require SecondOrderProofs3.

(** ** Pairs of indices *)
Section Pairs.
  Variable F : Type.
  Variable O : rops F.
  Hypothesis RT : is_ring O.
  Let RT' : ring_theory (r0 O) (r1 O) (radd O) (rmul O) (rsub O) (ropp O) eq := RT.
  Add Ring PaRing : RT'.
  Local Notation "x + y" := (radd O x y).
  Local Notation "x * y" := (rmul O x y).
  Local Notation rsum := (rsum F O).
  Local Notation pull := (pull F O).
  Local Notation mul := (mmul F O).

  Lemma pair_div q a b : b < q -> (a * q + b)%nat / q = a.
  Proof. intros H; rewrite Nat.add_comm, Nat.div_add by lia; rewrite Nat.div_small by exact H; reflexivity. Qed.
  Lemma pair_mod q a b : b < q -> ((a * q + b)%nat mod q)%nat = b.
  Proof. intros H; rewrite Nat.add_comm, Nat.mod_add by lia; apply Nat.mod_small, H. Qed.
  Lemma pair_bound q r a b : a < r -> b < q -> (a * q + b < r * q)%nat.
  Proof. intros H H'; nia. Qed.
  Lemma rsum_pairs a b (f : nat -> F) : rsum (a * b)%nat f = rsum a (fun i => rsum b (fun j => f (i * b + j)%nat)).
  Proof.
    induction a as [|a IH]; [reflexivity|]; replace (S a * b)%nat with (a * b + b)%nat by (cbn; lia).
    rewrite (rsum_split F O RT), IH; reflexivity.
  Qed.
  Lemma kr_pull q c f g (K : vec F) a b : b < c ->
    rsum (q * q)%nat (fun P => K P * kr F O q c f g P (a * c + b)%nat) = pull q q (fun u v => K (u * q + v)%nat) f g a b.
  Proof.
    intros Hb; rewrite rsum_pairs; unfold SecondOrderProofs.pull, bil; apply rsum_ext; intros u Hu; apply rsum_ext; intros v Hv.
    unfold kr; rewrite !pair_div, !pair_mod by assumption; reflexivity.
  Qed.

  Variables n ns nt nf ne N : nat.
  Variables c0 cp d : list nat.
  Variable J : mat F.
  Variable H : nat -> mat F.
  Variables G U V : mat F.
  Hypothesis Lnf : nf <= n.
  Hypothesis Ld : List.length d = N.
  Hypothesis Bd : forall c, In c d -> c < N.
  Hypothesis Lcp : List.length cp = nf.
  Hypothesis Bcp : forall c, In c cp -> c < N.
  Definition flatH : mat F := fun i P => H i (P / N) (P mod N).
  Local Notation jc_ i := (fun j => J i (nth j c0 0%nat)).
  Local Notation jf_ i := (fun f => J i (nth f cp 0%nat)).
  Local Notation coef i := (coef F O n ns nt nf G (jc_ i) (jf_ i)).
  Local Notation lead i := (lead F O n nf (jf_ i)).
  Local Notation Am := (Am F O n ns nt nf c0 cp J G).
  Local Notation Cm := (Cm F O n nf cp J).
  Local Notation Gs_ := (fun c a => G (ns + c)%nat a).
  Local Notation Us_ := (fun c a => U (ns + c)%nat a).
  Local Notation zx := (zx F O n ns nt nf G).
  Local Notation zu := (zu F O n ns nt nf G U).
  Definition Hd (i p q : nat) : F := H i (nth p d 0%nat) (nth q d 0%nat).
  Definition Hf (i f f' : nat) : F := H i (nth f cp 0%nat) (nth f' cp 0%nat).
  (** An array read as one with two indices in place of the last. *)
  Definition cube (c : nat) (X : mat F) : nat -> mat F := fun j a b => X j (a * c + b)%nat.

  Lemma cm_sum (y : vec F) i : rsum n (fun j => Cm i j * y j) = rsum nf (fun f => J i (nth f cp 0%nat) * y (n - nf + f)%nat).
  Proof.
    replace n with ((n - nf) + nf)%nat at 1 by lia; rewrite (rsum_split F O RT), (rsum_all_zero F O RT (n - nf)).
    - match goal with |- r0 O + ?s = _ => transitivity s; [ring|] end; apply rsum_ext; intros f Hf; unfold SecondOrderProofs5.Cm, SecondOrderProofs5.jf.
      rewrite (proj2 (Nat.ltb_ge (n - nf + f)%nat (n - nf))) by lia; replace (n - nf + f - (n - nf))%nat with f by lia; reflexivity.
    - intros j Hj; unfold SecondOrderProofs5.Cm; rewrite (proj2 (Nat.ltb_lt _ _) Hj); ring.
  Qed.
  Lemma lead_is X c i a b : rsum n (fun j => Cm i j * X j (a * c + b)%nat) = lead i (cube c X) a b.
  Proof. exact (cm_sum (fun j => X j (a * c + b)%nat) i). Qed.
  Lemma pull_ext q f g (K K' : mat F) a b : (forall u v, u < q -> v < q -> K u v = K' u v) -> pull q q K f g a b = pull q q K' f g a b.
  Proof. intros E; unfold SecondOrderProofs.pull; apply bil_ext; auto. Qed.
  Definition left_side (X : nat -> mat F) (i a b : nat) : F := rsum n (fun j => coef i j * X j a b) + pull nt nt (lead i X) Gs_ Gs_ a b.
  Lemma lhs_is X i a b : b < nt -> lhs F O n ns nt nf c0 cp J G X i (a * nt + b)%nat = left_side (cube nt X) i a b.
  Proof.
    intros Hb; unfold lhs, left_side; f_equal; unfold mmul; rewrite (kr_pull nt nt _ _ (fun P => rsum n (fun k => Cm i k * X k P)) a b Hb).
    apply pull_ext; intros u v _ _; apply lead_is.
  Qed.
  Lemma hess_pull c f g i a b : b < c -> mul (N * N)%nat (Hh F N d flatH) (kr F O N c f g) i (a * c + b)%nat = pull N N (Hd i) f g a b.
  Proof.
    intros Hb; unfold mmul; rewrite (kr_pull N c f g (fun P => Hh F N d flatH i P) a b Hb); apply pull_ext; intros u v Hu Hv.
    unfold Hh, flatH, Hd; rewrite !(pair_div N u v Hv), !(pair_mod N u v Hv).
    assert (B : nth v d 0%nat < N) by (apply Bd, nth_In; lia).
    rewrite pair_div, pair_mod by exact B; reflexivity.
  Qed.
  Lemma neg_move (p q : F) : p = ropp O q -> p + q = r0 O.
  Proof. intros ->; ring. Qed.
  Lemma neg_move2 (p q r : F) : p = rsub O (ropp O q) r -> p + r + q = r0 O.
  Proof. intros ->; ring. Qed.

  Variables XX XU UU C : mat F.
  Hypothesis Kxx : forall i p, i < n -> p < (nt * nt)%nat -> lhs F O n ns nt nf c0 cp J G XX i p = ropp O (mul (N * N)%nat (Hh F N d flatH) (kr F O N nt zx zx) i p).
  Lemma Exx i a b : i < n -> a < nt -> b < nt -> left_side (cube nt XX) i a b + pull N N (Hd i) zx zx a b = r0 O.
  Proof.
    intros Hi Ha Hb; apply neg_move; rewrite <- lhs_is, Kxx, hess_pull by (try assumption; apply pair_bound; assumption); reflexivity.
  Qed.
  Hypothesis Kxu : forall i p, i < n -> p < (nt * ne)%nat ->
    mul n Am XU i p = rsub O (ropp O (mul (N * N)%nat (Hh F N d flatH) (kr F O N ne zx zu) i p)) (mul n Cm (mul (nt * nt)%nat XX (kr F O nt ne (Gs F ns G) (Us F ns U))) i p).
  Lemma Exu i a l : i < n -> a < nt -> l < ne -> rsum n (fun j => coef i j * cube ne XU j a l) + pull nt nt (lead i (cube nt XX)) Gs_ Us_ a l + pull N N (Hd i) zx zu a l = r0 O.
  Proof.
    intros Hi Ha Hl; apply neg_move2.
    pose proof (Kxu i (a * ne + l)%nat Hi ltac:(apply pair_bound; assumption)) as E; rewrite hess_pull in E by assumption.
    rewrite <- (mmul_assoc_entry F O RT) in E; transitivity (mul n Am XU i (a * ne + l)%nat); [reflexivity|]; rewrite E; f_equal.
    unfold mmul; rewrite (kr_pull nt ne _ _ (fun P => rsum n (fun k => Cm i k * XX k P)) a l Hl); apply pull_ext; intros u v _ _; apply lead_is.
  Qed.
  Hypothesis Kuu : forall i p, i < n -> p < (ne * ne)%nat ->
    mul n Am UU i p = rsub O (ropp O (mul (N * N)%nat (Hh F N d flatH) (kr F O N ne zu zu) i p)) (mul (nt * nt)%nat (mul n Cm XX) (kr F O nt ne (Us F ns U) (Us F ns U)) i p).
  Lemma Euu i l m : i < n -> l < ne -> m < ne -> rsum n (fun j => coef i j * cube ne UU j l m) + pull nt nt (lead i (cube nt XX)) Us_ Us_ l m + pull N N (Hd i) zu zu l m = r0 O.
  Proof.
    intros Hi Hl Hm; apply neg_move2.
    pose proof (Kuu i (l * ne + m)%nat Hi ltac:(apply pair_bound; assumption)) as E; rewrite hess_pull in E by assumption.
    transitivity (mul n Am UU i (l * ne + m)%nat); [reflexivity|]; rewrite E; f_equal.
    unfold mmul; rewrite (kr_pull nt ne _ _ (fun P => rsum n (fun k => Cm i k * XX k P)) l m Hm); apply pull_ext; intros u v _ _; apply lead_is.
  Qed.
  Hypothesis Vsym : forall l m, l < ne -> m < ne -> V l m = V m l.
  Hypothesis Kun : forall i, i < n -> mul n (fun i j => Am i j + Cm i j) C i 0 =
    ropp O (rsum (ne * ne)%nat (fun p => spread F O n nf ne N cp J flatH U UU i p * V (p mod ne) (p / ne))).
  Lemma Eun i : i < n ->
    rsum n (fun j => (coef i j + (if n - nf <=? j then J i (nth (j - (n - nf)) cp 0%nat) else r0 O)) * C j 0) +
    rsum ne (fun l => rsum ne (fun m => (rsum nf (fun f => J i (nth f cp 0%nat) * cube ne UU (n - nf + f)%nat l m) +
      bil F O nf nf (Hf i) (fun f => U (n - nf + f)%nat l) (fun f => U (n - nf + f)%nat m)) * V l m)) = r0 O.
  Proof.
    intros Hi; apply neg_move.
    transitivity (mul n (fun i j => Am i j + Cm i j) C i 0).
    { unfold mmul; apply rsum_ext; intros j Hj; f_equal; unfold SecondOrderProofs5.Am, SecondOrderProofs.coef, SecondOrderProofs5.Cm; f_equal.
      destruct (Nat.ltb_spec j (n - nf)), (Nat.leb_spec (n - nf) j); try lia; reflexivity. }
    rewrite Kun by exact Hi; f_equal; rewrite rsum_pairs; apply rsum_ext; intros l Hl; apply rsum_ext; intros m Hm.
    rewrite pair_div, pair_mod, Vsym by assumption; f_equal; unfold spread; f_equal.
    unfold mmul; rewrite (kr_pull nf ne _ _ (fun P => Hff F nf N cp flatH i P) l m Hm).
    unfold SecondOrderProofs.pull; apply bil_ext; [|reflexivity|reflexivity].
    intros u v Hu Hv; unfold Hff, flatH, Hf; rewrite !(pair_div nf u v Hv), !(pair_mod nf u v Hv).
    assert (B : nth v cp 0%nat < N) by (apply Bcp, nth_In; lia).
    rewrite pair_div, pair_mod by exact B; reflexivity.
  Qed.

  (** The second derivatives in the states are symmetric. *)
  Hypothesis Hsym : forall i c e, i < n -> c < N -> e < N -> H i c e = H i e c.
  Hypothesis unique : forall Y, (forall i p, i < n -> p < (nt * nt)%nat -> lhs F O n ns nt nf c0 cp J G Y i p = r0 O) -> forall i p, i < n -> p < (nt * nt)%nat -> Y i p = r0 O.
  Lemma Hd_sym i p q : i < n -> p < N -> q < N -> Hd i p q = Hd i q p.
  Proof. intros Hi Hp Hq; apply Hsym; [exact Hi| |]; apply Bd, nth_In; lia. Qed.
  Lemma left_swap X i a b : left_side (fun j a b => X j b a) i a b = left_side X i b a.
  Proof.
    unfold left_side; f_equal; unfold SecondOrderProofs.pull; rewrite (bil_swap F O RT); reflexivity.
  Qed.
  Lemma left_sub X Y i a b : left_side (fun j a b => rsub O (X j a b) (Y j a b)) i a b = rsub O (left_side X i a b) (left_side Y i a b).
  Proof.
    unfold left_side.
    assert (E1 : rsum n (fun j => coef i j * rsub O (X j a b) (Y j a b)) = rsub O (rsum n (fun j => coef i j * X j a b)) (rsum n (fun j => coef i j * Y j a b))).
    { rewrite <- (rsum_sub F O RT); apply rsum_ext; intros; ring. }
    assert (E2 : pull nt nt (lead i (fun j a b => rsub O (X j a b) (Y j a b))) Gs_ Gs_ a b = rsub O (pull nt nt (lead i X) Gs_ Gs_ a b) (pull nt nt (lead i Y) Gs_ Gs_ a b)).
    { unfold SecondOrderProofs.pull, bil, SecondOrderProofs.lead.
      rewrite <- (rsum_sub F O RT); apply rsum_ext; intros c _; rewrite <- (rsum_sub F O RT); apply rsum_ext; intros e _.
      match goal with |- rsum nf ?f * ?z = rsub O (rsum nf ?g * ?z) (rsum nf ?h * ?z) => assert (E : rsum nf f = rsub O (rsum nf g) (rsum nf h)) end.
      { rewrite <- (rsum_sub F O RT); apply rsum_ext; intros f _; ring. }
      rewrite E; ring. }
    rewrite E1, E2; ring.
  Qed.
  Lemma left_ext X Y i a b : a < nt -> b < nt -> (forall j c e, j < n -> c < nt -> e < nt -> X j c e = Y j c e) -> left_side X i a b = left_side Y i a b.
  Proof.
    intros Ha Hb E; unfold left_side; f_equal; [apply rsum_ext; intros j Hj; rewrite E by assumption; reflexivity|].
    apply pull_ext; intros c e Hc He; unfold SecondOrderProofs.lead; apply rsum_ext; intros f Hf; rewrite E by (try assumption; lia); reflexivity.
  Qed.
  Lemma Xsym j a b : j < n -> a < nt -> b < nt -> cube nt XX j a b = cube nt XX j b a.
  Proof.
    intros Hj Ha Hb; set (Y := fun i p => rsub O (XX i p) (XX i ((p mod nt) * nt + p / nt)%nat)).
    assert (Z : Y j (a * nt + b)%nat = r0 O).
    { apply unique; [|exact Hj|apply pair_bound; assumption]; clear j a b Hj Ha Hb; intros i p Hi Hp.
      rewrite (Nat.div_mod p nt) by lia; rewrite (Nat.mul_comm nt (p / nt)); set (a := (p / nt)%nat); set (b := (p mod nt)%nat).
      assert (Ha : a < nt) by (apply Nat.div_lt_upper_bound; lia); assert (Hb : b < nt) by (apply Nat.mod_upper_bound; lia).
      rewrite lhs_is by exact Hb.
      rewrite (left_ext (cube nt Y) (fun j a b => rsub O (cube nt XX j a b) ((fun j a b => cube nt XX j b a) j a b)) i a b Ha Hb).
      2: { intros k c e _ Hc He; unfold cube, Y; rewrite pair_div, pair_mod by exact He; reflexivity. }
      rewrite (left_sub (cube nt XX) (fun j a b => cube nt XX j b a)), (left_swap (cube nt XX) i a b).
      pose proof (Exx i a b Hi Ha Hb) as E1; pose proof (Exx i b a Hi Hb Ha) as E2.
      rewrite (pull_swap F O RT N (Hd i) zx zx b a) in E2 by (intros c e Hc He; apply Hd_sym; assumption).
      match type of E1 with ?u + ?w = _ => match type of E2 with ?v + _ = _ => transitivity (rsub O (u + w) (v + w)); [ring|rewrite E1, E2; ring] end end. }
    unfold Y in Z; rewrite pair_div, pair_mod in Z by exact Hb.
    change (rsub O (cube nt XX j a b) (cube nt XX j b a) = r0 O) in Z.
    transitivity (rsub O (cube nt XX j a b) (cube nt XX j b a) + cube nt XX j b a); [ring|rewrite Z; ring].
  Qed.
End Pairs.

(** ** A model *)
Section Model.
  Variable F : Type.
  Variable O : rops F.
  Hypothesis RT : is_ring O.
  Variable eqb : F -> F -> bool.
  Variable qz : nat -> mat F -> mat F -> res (mat F * mat F * mat F * mat F).
  Variable solve : nat -> nat -> mat F -> mat F -> res (mat F).
  Variable nan : F.
  Hypothesis eqb_eq : forall a b, eqb a b = true <-> a = b.
  Hypothesis Hq : real_schur_routine F O qz.
  Hypothesis Hs : linear_routine F O solve.
  Hypothesis He : fails_when_singular F O solve.
  Hypothesis Hu : refuses_singular F O solve.
  Variable L : list (list Z).
  Variable k : nat.
  Hypothesis all0 : forall i, i < List.length L -> at_k L i 0 = true.
  Let X := array L k.
  Let n := List.length L.
  Let T := List.length (timed_vars L).
  Let ns := List.length (St L).
  Let nt := (List.length (PB L) + List.length (MX L))%nat.
  Let nf := (List.length (MX L) + List.length (PF L))%nat.
  Let N := (T + k)%nat.
  Let c0 := not_nan (row_0 (dr X)).
  Let cp := not_nan (row_p (dr X)).
  Let d := dr_columns X.
  Lemma pure_forward_next : exists l, timed is_pure_forward X 1%Z = Ok l /\ List.length l = List.length (PF L).
  Proof.
    exists (map (column L k 1) (PF L)); split; [|apply map_length].
    unfold timed; rewrite row_of_at by lia; cbn [bind]; f_equal.
    change (mask is_pure_forward X) with (mask is_pure_forward (array L k)); rewrite (mask_array is_pure_forward (fun a b c => negb a && c)) by (intros [] [] []; reflexivity).
    assert (E : row_at X 1 = map (fun v => nth v (row_at X 1) None) (seq 0 n)).
    { rewrite <- (map_nth_seq None (row_at X 1)) at 1; unfold X; rewrite array_length; reflexivity. }
    rewrite E at 1; clear E.
    assert (E : map (fun ll => negb (existsb (Z.eqb (-1)) ll) && existsb (Z.eqb 1) ll) L = map (pure_forward L) (seq 0 n)).
    { rewrite <- (map_nth_seq [] L) at 1; rewrite map_map; apply map_ext; intros v; reflexivity. }
    rewrite E, select_map_filter; fold (members_of L (pure_forward L)); fold (PF L).
    apply not_nan_map; intros v Hv; unfold PF, members_of, pure_forward in Hv; apply filter_In in Hv as [Hv A]; apply in_seq in Hv; intros Z.
    unfold X in Z; pose proof (isnan_at L k 1 v ltac:(lia) ltac:(lia)) as I; rewrite Z in I; destruct (at_k L v (-1)), (at_k L v 1); discriminate.
  Qed.
  Lemma sizes_here : ns + nt <= n /\ nf <= n /\ (ns + nt + List.length (PF L) = n)%nat /\ N = (nt + n + nf + k)%nat.
  Proof.
    destruct (SecondOrderProofs3.sizes_rule L k all0) as (A & B & C); unfold SecondOrderProofs3.ns, SecondOrderProofs3.nt, SecondOrderProofs3.nf, SecondOrderProofs3.n, SecondOrderProofs3.T in *.
    pose proof (sizes L k all0) as S_; unfold ns, nt, nf, n, N, T; repeat split; lia.
  Qed.
  Lemma d_bound c : In c d -> c < N.
  Proof. intros I; apply (Permutation_in _ (dr_perm L k all0)), in_seq in I; unfold N, T; lia. Qed.
  Lemma d_length : List.length d = N.
  Proof. unfold d, X; rewrite (Permutation_length (dr_perm L k all0)), seq_length; reflexivity. Qed.
  Lemma c0_bound c : In c c0 -> c < N.
  Proof.
    intros I; apply d_bound; unfold d, dr_columns; apply in_or_app; left; rewrite !not_nan_app; apply in_or_app; right; apply in_or_app; left; exact I.
  Qed.
  Lemma cp_bound c : In c cp -> c < N.
  Proof.
    intros I; apply d_bound; unfold d, dr_columns; apply in_or_app; left; rewrite !not_nan_app; apply in_or_app; right; apply in_or_app; right; exact I.
  Qed.
  Lemma c0_length : List.length c0 = n.
  Proof. unfold c0, X; rewrite (not_nan_now L k all0), map_length; exact (order_length L k all0). Qed.
  Lemma cp_length : List.length cp = nf.
  Proof. unfold cp, X; rewrite (not_nan_lead L k all0), map_length, app_length; reflexivity. Qed.

  Variable J : mat F.
  Variable H : nat -> mat F.
  Variable V : mat F.
  Variable g : rule F.
  Hypothesis Hg : about F L g.
  Hypothesis Hk : rk g = k.
  Hypothesis Pt : 0 < nt.
  Hypothesis Pe : 0 < k.
  Definition gy_ : nd F := squeeze F (M2 n nt (ry g)).
  Definition gu_ : nd F := squeeze F (M2 n k (ru g)).
  Definition jac : nd F := M2 n N J.
  Definition hes : nd F := M2 n (N * N) (flatH F N H).
  Definition cov : nd F := M2 k k V.

  Theorem second_sizes r : 0 < n -> solve_second_order F O eqb qz solve nan X gy_ gu_ jac hes cov = Ok r ->
    1 < n /\ 0 < nf /\ ((1 < nt /\ 1 < k) \/ (nt = 1 /\ 1 < nf /\ (k = 1 \/ k <> nf))).
  Proof using RT eqb_eq Hq Hs He Hu all0 Hk Pt Pe.
    intros n1 E; destruct pure_forward_next as (npf & E1 & E2); destruct sizes_here as (S1 & S2 & S3 & S4).
    apply (run_sizes F O RT eqb qz solve nan X n ns nt nf k N c0 cp d npf (n_endog_is L k) (n_state_is L k all0) (n_static_is L k all0 Pt) eq_refl
      (present_now L k all0) (present_lead L k all0) eq_refl eq_refl c0_length cp_length c0_bound cp_bound eq_refl d_length d_bound (width_is L k all0)
      ltac:(lia) S2 S4 Pt Pe J (flatH F N H) V (ry g) (ru g) r eqb_eq Hq Hs He Hu n1 E).
  Qed.
  Hypothesis Hsym : forall i c e, i < n -> c < N -> e < N -> H i c e = H i e c.
  Hypothesis Vsym : forall l m, l < k -> m < k -> V l m = V m l.
  Theorem second_spec : 1 < n -> 0 < nf -> (1 < nt /\ 1 < k) \/ (nt = 1 /\ 1 < nf /\ (k = 1 \/ k <> nf)) ->
    match solve_second_order F O eqb qz solve nan X gy_ gu_ jac hes cov with
    | Err e => failed F qz solve e
    | Ok (xx, xu, uu, dl) => exists XX XU UU C,
        (isV F xx n (nt * nt) (fun i p => rdiv O (XX i p) (SecondOrder.two F O)) /\ isV F xu n (nt * k) XU /\
         isV F uu n (k * k) (fun i p => rdiv O (UU i p) (SecondOrder.two F O)) /\ isV F dl n 1 (fun i p => rdiv O (C i p) (SecondOrder.two F O))) /\
        solves_second F O L J H g (cube F nt XX) (cube F k XU) (cube F k UU) /\
        solves_uncertainty F O L J H g (cube F k UU) V (fun i => C i 0)
    end.
  Proof using All.
    intros n2 f1 Sh; destruct pure_forward_next as (npf & E1 & E2); destruct sizes_here as (S1 & S2 & S3 & S4).
    pose proof (run F O RT eqb qz solve nan X n ns nt nf k N c0 cp d npf (n_endog_is L k) (n_state_is L k all0) (n_static_is L k all0 Pt) eq_refl
      (present_now L k all0) (present_lead L k all0) eq_refl eq_refl c0_length cp_length c0_bound cp_bound eq_refl d_length d_bound (width_is L k all0)
      E1 ltac:(lia) S2 S4 Pt Pe J (flatH F N H) V (ry g) (ru g) n2 f1 ltac:(lia) ltac:(lia) eqb_eq Hq Hs He Hu ltac:(lia)) as R.
    change (solve_second_order F O eqb qz solve nan X (gy F n nt (ry g)) (gu F n k (ru g)) (jac_ F n N J) (hess F n N (flatH F N H)) (sigma F k V))
      with (solve_second_order F O eqb qz solve nan X gy_ gu_ jac hes cov) in R.
    destruct (solve_second_order F O eqb qz solve nan X gy_ gu_ jac hes cov) as [[[[xx xu] uu] dl]|e]; [|exact R].
    destruct R as (XX & XU & UU & C & Hshape & Kxx & Kun & Kxu & Kuu & Kd); exists XX, XU, UU, C; split; [exact Hshape|]; split.
    - apply (SecondOrderProofs3.second_solves F O RT L k all0 J H g Hg Hk Hsym (cube F nt XX) (cube F k XU) (cube F k UU)).
      + exact (Xsym F O RT n ns nt nf N c0 cp d J H (ry g) S2 d_length d_bound cp_length XX Kxx Hsym Kun).
      + exact (Exx F O RT n ns nt nf N c0 cp d J H (ry g) S2 d_length d_bound cp_length XX Kxx).
      + exact (Exu F O RT n ns nt nf k N c0 cp d J H (ry g) (ru g) S2 d_length d_bound cp_length XX XU Kxu).
      + exact (Euu F O RT n ns nt nf k N c0 cp d J H (ry g) (ru g) S2 d_length d_bound cp_length XX UU Kuu).
    - apply (SecondOrderProofs3.uncertainty_solves F O RT L k all0 J H g Hg Hk).
      exact (Eun F O RT n ns nt nf k N c0 cp d J H (ry g) (ru g) V S2 d_length cp_length cp_bound UU C Vsym Kd).
  Qed.
End Model.
