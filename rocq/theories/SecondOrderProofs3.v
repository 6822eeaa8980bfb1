(** From the equations of the second derivatives in decision-rule order to the model. *)
From Verif Require Import Base Nd NdProofs Mat MatProofs SimSpec Indexing IndexingSpec IndexingProofs IndexingProofs2 SummaryProofs Moments
  FirstOrder FirstOrderSpec FirstOrderProofs FirstOrderProofs4 SecondOrder SecondOrderSpec SecondOrderProofs SecondOrderProofs2.

Section Rule.
  Variable F : Type.
  Variable O : rops F.
  Hypothesis RT : is_ring O.
  Let RT' : ring_theory (r0 O) (r1 O) (radd O) (rmul O) (rsub O) (ropp O) eq := RT.
  Add Ring SRing : RT'.
  Local Notation "x + y" := (radd O x y).
  Local Notation "x * y" := (rmul O x y).
  Local Notation rsum := (rsum F O).
  Local Notation zero := (fun _ : nat => r0 O).
  Variable L : list (list Z).
  Variable k : nat.
  Hypothesis all0 : forall i, i < List.length L -> at_k L i 0 = true.
  Definition X := array L k.
  Definition n := List.length L.
  Definition T := List.length (timed_vars L).
  Definition ns := List.length (St L).
  Definition nt := (List.length (PB L) + List.length (MX L))%nat.
  Definition nf := (List.length (MX L) + List.length (PF L))%nat.
  Definition N := (T + k)%nat.
  Definition drc := dr_columns X.
  Definition fore f := (n - nf + f)%nat.
  Variable J : mat F.
  Variable H : nat -> mat F.
  Variable g : rule F.
  Hypothesis Hg : about F L g.
  Hypothesis Hk : rk g = k.
  Local Notation G := (ry g).
  Local Notation U := (ru g).

  Definition jc (i j : nat) : F := J i (nth j (not_nan (row_0 (dr X))) 0%nat).
  Definition jf (i f : nat) : F := J i (nth f (not_nan (row_p (dr X))) 0%nat).
  Definition Hd (i p q : nat) : F := H i (nth p drc 0%nat) (nth q drc 0%nat).
  Definition zx (p a : nat) : F :=
    if p <? nt then mid F O p a else if p <? nt + n then G (p - nt)%nat a
    else if p <? nt + n + nf then rsum nt (fun c => G (fore (p - nt - n)%nat) c * G (ns + c)%nat a) else r0 O.
  Definition zu (p l : nat) : F :=
    if p <? nt then r0 O else if p <? nt + n then U (p - nt)%nat l
    else if p <? nt + n + nf then rsum nt (fun c => G (fore (p - nt - n)%nat) c * U (ns + c)%nat l) else mid F O (p - nt - n - nf)%nat l.

  Lemma sizes_rule : ns + nt <= n /\ nf <= n /\ T = (nt + (n + nf))%nat.
  Proof. destruct (size_split L k all0) as (_ & A & B); split; [exact A|]; split; [exact B|exact (proj2 (timed_length L k all0))]. Qed.
  Lemma rn_is : rn g = n. Proof. apply Hg. Qed.
  Lemma rs_is : rs g = nt.
  Proof. destruct Hg as (_ & _ & _ & E); rewrite E, (Permutation_length (backward_perm L k all0)), app_length; reflexivity. Qed.
  Lemma var_is i : var_at g i = nth i (order L) 0%nat.
  Proof. unfold var_at; destruct Hg as (_ & -> & _); reflexivity. Qed.
  Lemma state_is a : a < nt -> state_at g a = nth (ns + a) (order L) 0%nat.
  Proof.
    intros Ha; unfold state_at; destruct Hg as (_ & E1 & E2 & E3); rewrite E1, E2, <- E3, rs_is; rewrite seq_nth by exact Ha; reflexivity.
  Qed.
  Lemma order_pos v : v < n -> exists i, i < n /\ v = var_at g i.
  Proof.
    intros Hv; assert (I : In v (order L)) by (apply (Permutation_in _ (Permutation_sym (order_perm L k all0))), in_seq; fold n; lia).
    apply (In_nth _ _ 0%nat) in I as (i & Hi & E); rewrite (order_length L k all0) in Hi; exists i; split; [exact Hi|rewrite var_is; symmetry; exact E].
  Qed.
  Lemma lag_pos j : j < nt -> nth j (PB L ++ MX L) 0%nat = nth (ns + j) (order L) 0%nat.
  Proof.
    intros Hj; unfold order; rewrite (app_nth2 (St L)) by (unfold ns; lia); replace (ns + j - List.length (St L))%nat with j by (unfold ns; lia).
    rewrite app_assoc, (app_nth1 (PB L ++ MX L)) by (rewrite app_length; exact Hj); reflexivity.
  Qed.
  Lemma lead_pos f : f < nf -> nth f (MX L ++ PF L) 0%nat = nth (fore f) (order L) 0%nat.
  Proof.
    intros Hf; unfold order; rewrite app_assoc; pose proof (size_split L k all0) as S1; cbv zeta in S1; destruct S1 as (S1 & _ & _).
    assert (E : (n - nf)%nat = List.length (St L ++ PB L)) by (rewrite app_length; unfold n, nf; lia).
    unfold fore; rewrite E, (app_nth2 (St L ++ PB L)) by lia; f_equal; lia.
  Qed.
  Lemma decides_at before u after i : decides F O g before u after -> i < n ->
    after (nth i (order L) 0%nat) = rsum nt (fun a => G i a * before (nth (ns + a) (order L) 0%nat)) + rsum k (fun l => U i l * u l).
  Proof.
    intros D Hi; rewrite <- var_is; rewrite (D i) by (rewrite rn_is; exact Hi); rewrite rs_is, Hk, !Sum_rsum; f_equal.
    apply rsum_ext; intros a Ha; rewrite state_is by exact Ha; reflexivity.
  Qed.

  Lemma decides_still before after i : decides F O g before zero after -> i < n ->
    after (nth i (order L) 0%nat) = rsum nt (fun a => G i a * before (nth (ns + a) (order L) 0%nat)).
  Proof.
    intros D Hi; rewrite (decides_at before zero after i D Hi), (rsum_all_zero F O RT k) by (intros; ring); ring.
  Qed.

  (** ** The arguments of the equations *)
  Lemma drc_is : drc = timed_columns L k ++ seq T k.
  Proof. exact (dr_columns_is L k all0). Qed.
  Lemma nth_map_col kk M j : j < List.length M -> nth j (map (column L k kk) M) 0%nat = column L k kk (nth j M 0%nat).
  Proof. intros Hj; rewrite (nth_indep _ 0%nat (column L k kk 0%nat)) by (rewrite map_length; exact Hj); apply map_nth. Qed.
  Lemma argument_col lag now next u kk v : v < n -> (-1 <= kk <= 1)%Z -> at_k L v kk = true ->
    argument F L lag now next u (column L k kk v) = dated F lag now next (v, kk).
  Proof.
    intros Hv Hkk Ha; pose proof (column_spec L k kk v Hv Hkk Ha) as E; unfold argument.
    rewrite (proj2 (Nat.ltb_lt (column L k kk v) (List.length (timed_vars L)))) by (apply nth_error_Some; rewrite E; discriminate).
    rewrite (nth_error_nth _ _ _ E); reflexivity.
  Qed.
  Lemma argument_at lag now next u p : p < N ->
    argument F L lag now next u (nth p drc 0%nat) =
    (if p <? nt then lag (nth (ns + p) (order L) 0%nat) else if p <? nt + n then now (nth (p - nt) (order L) 0%nat)
     else if p <? nt + n + nf then next (nth (fore (p - nt - n)) (order L) 0%nat) else u (p - nt - n - nf)%nat).
  Proof.
    intros Hp; destruct sizes_rule as (S1 & S2 & S3); unfold N in Hp; rewrite drc_is.
    destruct (Nat.ltb_spec p (nt + n + nf)) as [B|B].
    - rewrite app_nth1 by (rewrite (proj1 (timed_length L k all0)); fold T; lia); unfold timed_columns.
      assert (L1 : List.length (PB L ++ MX L) = nt) by (rewrite app_length; reflexivity).
      assert (L2 : List.length (order L) = n) by exact (order_length L k all0).
      assert (L3 : List.length (MX L ++ PF L) = nf) by (rewrite app_length; reflexivity).
      destruct (Nat.ltb_spec p nt) as [A|A].
      + rewrite app_nth1 by (rewrite map_length, L1; exact A); rewrite nth_map_col by (rewrite L1; exact A).
        destruct (lag_at L k all0 (nth p (PB L ++ MX L) 0%nat)) as [V1 V2]; [apply nth_In; rewrite L1; exact A|].
        rewrite argument_col by (assumption || lia); unfold dated; cbn [fst snd Z.eqb Pos.eqb]; rewrite lag_pos by exact A; reflexivity.
      + rewrite app_nth2 by (rewrite map_length, L1; exact A); rewrite map_length, L1; destruct (Nat.ltb_spec p (nt + n)) as [C|C].
        * rewrite app_nth1 by (rewrite map_length, L2; lia); rewrite nth_map_col by (rewrite L2; lia).
          destruct (now_at L k all0 (nth (p - nt) (order L) 0%nat)) as [V1 V2]; [apply nth_In; rewrite L2; lia|].
          rewrite argument_col by (assumption || lia); reflexivity.
        * rewrite app_nth2 by (rewrite map_length, L2; lia); rewrite map_length, L2; rewrite nth_map_col by (rewrite L3; lia).
          destruct (lead_at L k all0 (nth (p - nt - n) (MX L ++ PF L) 0%nat)) as [V1 V2]; [apply nth_In; rewrite L3; lia|].
          rewrite argument_col by (assumption || lia); rewrite lead_pos by lia; reflexivity.
    - rewrite app_nth2 by (rewrite (proj1 (timed_length L k all0)); fold T; lia); rewrite (proj1 (timed_length L k all0)); fold T; rewrite seq_nth by lia.
      rewrite (proj2 (Nat.ltb_ge p nt)), (proj2 (Nat.ltb_ge p (nt + n))) by lia.
      unfold argument; fold T; rewrite (proj2 (Nat.ltb_ge (T + (p - T)) T)) by lia; f_equal; lia.
  Qed.
  (** After yesterday's values and the shocks. *)
  Lemma mid_sum m a (v : vec F) : a < m -> rsum m (fun b => mid F O a b * v b) = v a.
  Proof.
    intros Ha; rewrite (rsum_single F O RT m a); [unfold mid; rewrite Nat.eqb_refl; ring|exact Ha|].
    intros b _ Nb; unfold mid; rewrite (proj2 (Nat.eqb_neq a b)) by congruence; ring.
  Qed.
  Lemma zero_sum m (v : vec F) : rsum m (fun b => r0 O * v b) = r0 O.
  Proof. apply (rsum_all_zero F O RT); intros; ring. Qed.
  Lemma chain_sum m (W : mat F) (w v : vec F) : rsum nt (fun c => w c * rsum m (fun a => W c a * v a)) = rsum m (fun a => rsum nt (fun c => w c * W c a) * v a).
  Proof.
    transitivity (rsum nt (fun c => rsum m (fun a => w c * W c a * v a))); [apply rsum_ext; intros c _; rewrite <- (rsum_mul_l F O RT); apply rsum_ext; intros; ring|].
    rewrite (rsum_swap F O RT); apply rsum_ext; intros a _; rewrite (rsum_mul_r F O RT); reflexivity.
  Qed.
  Lemma argument_moves lag u now next p : decides F O g lag u now -> decides F O g now zero next -> p < N ->
    argument F L lag now next u (nth p drc 0%nat) =
    rsum nt (fun a => zx p a * lag (nth (ns + a) (order L) 0%nat)) + rsum k (fun l => zu p l * u l).
  Proof.
    intros D1 D2 Hp; destruct sizes_rule as (S1 & S2 & S3); unfold N in Hp; rewrite argument_at by exact Hp; unfold zx, zu.
    destruct (Nat.ltb_spec p nt) as [A|A].
    { rewrite zero_sum, (mid_sum nt p (fun a => lag (nth (ns + a) (order L) 0%nat))) by exact A; ring. }
    destruct (Nat.ltb_spec p (nt + n)) as [B|B]; [apply decides_at; [exact D1|lia]|].
    destruct (Nat.ltb_spec p (nt + n + nf)) as [C|C].
    - rewrite (decides_still now next (fore (p - nt - n)) D2) by (unfold fore; lia).
      rewrite (rsum_ext F O nt _ (fun c => G (fore (p - nt - n)) c * rsum nt (fun a => G (ns + c)%nat a * lag (nth (ns + a) (order L) 0%nat)) + G (fore (p - nt - n)) c * rsum k (fun l => U (ns + c)%nat l * u l))).
      2: { intros c Hc; rewrite (decides_at lag u now (ns + c) D1) by lia; ring. }
      rewrite (rsum_add F O RT), (chain_sum nt (fun c a => G (ns + c)%nat a)), (chain_sum k (fun c l => U (ns + c)%nat l)); reflexivity.
    - rewrite zero_sum, mid_sum by lia; ring.
  Qed.
  Lemma moved_form i lag u now next lag' u' now' next' :
    decides F O g lag u now -> decides F O g now zero next -> decides F O g lag' u' now' -> decides F O g now' zero next' ->
    bil F O N N (H i) (argument F L lag now next u) (argument F L lag' now' next' u') =
    bil F O N N (Hd i) (fun p => rsum nt (fun a => zx p a * lag (nth (ns + a) (order L) 0%nat)) + rsum k (fun l => zu p l * u l))
                       (fun p => rsum nt (fun a => zx p a * lag' (nth (ns + a) (order L) 0%nat)) + rsum k (fun l => zu p l * u' l)).
  Proof.
    intros D1 D2 D3 D4; unfold bil; rewrite (rsum_perm F O RT N drc) by exact (dr_perm L k all0); apply rsum_ext; intros p Hp.
    rewrite (rsum_perm F O RT N drc) by exact (dr_perm L k all0); apply rsum_ext; intros q Hq.
    rewrite (argument_moves lag u now next p D1 D2 Hp), (argument_moves lag' u' now' next' q D3 D4 Hq); reflexivity.
  Qed.
  Lemma jacobian_form i now next :
    rsum N (fun c => J i c * argument F L zero now next zero c) =
    rsum n (fun j => jc i j * now (nth j (order L) 0%nat)) + rsum nf (fun f => jf i f * next (nth (fore f) (order L) 0%nat)).
  Proof.
    unfold N; rewrite (rsum_split F O RT).
    rewrite (rsum_all_zero F O RT k).
    2: { intros l Hl; unfold argument; fold T; rewrite (proj2 (Nat.ltb_ge (T + l) T)) by lia; ring. }
    rewrite (rsum_ext F O T _ (fun c => J i c * dated F zero now next (nth c (timed_vars L) (0%nat, 0%Z)))).
    2: { intros c Hc; unfold argument; rewrite (proj2 (Nat.ltb_lt c (List.length (timed_vars L)))) by exact Hc; reflexivity. }
    unfold T; rewrite (timed_sum F O RT L k all0 (J i)).
    assert (L1 : List.length (PB L ++ MX L) = nt) by (rewrite app_length; reflexivity).
    assert (L2 : List.length (order L) = n) by exact (order_length L k all0).
    assert (L3 : List.length (MX L ++ PF L) = nf) by (rewrite app_length; reflexivity).
    rewrite L1, L2, L3, (rsum_all_zero F O RT nt) by (intros; ring).
    rewrite (rsum_ext F O nf _ (fun f => jf i f * next (nth (fore f) (order L) 0%nat))).
    2: { intros f Hf; unfold jf; rewrite lead_pos by exact Hf; unfold X; rewrite (not_nan_lead L k all0); reflexivity. }
    rewrite (rsum_ext F O n _ (fun j => jc i j * now (nth j (order L) 0%nat))).
    2: { intros j Hj; unfold jc, X; rewrite (not_nan_now L k all0); reflexivity. }
    ring.
  Qed.

  (** ** The second derivatives *)
  Hypothesis Hsym : forall i c d, i < n -> c < N -> d < N -> H i c d = H i d c.
  Variables XX XU UU : nat -> mat F.
  Hypothesis Xsym : forall j a b, j < n -> a < nt -> b < nt -> XX j a b = XX j b a.
  Local Notation coef i := (coef F O n ns nt nf G (jc i) (jf i)).
  Local Notation lead i := (lead F O n nf (jf i)).
  Local Notation pull := (pull F O).
  Let Gs : mat F := fun c a => G (ns + c)%nat a.
  Let Us : mat F := fun c l => U (ns + c)%nat l.
  Hypothesis Exx : forall i a b, i < n -> a < nt -> b < nt ->
    rsum n (fun j => coef i j * XX j a b) + pull nt nt (lead i XX) Gs Gs a b + pull N N (Hd i) zx zx a b = r0 O.
  Hypothesis Exu : forall i a l, i < n -> a < nt -> l < k ->
    rsum n (fun j => coef i j * XU j a l) + pull nt nt (lead i XX) Gs Us a l + pull N N (Hd i) zx zu a l = r0 O.
  Hypothesis Euu : forall i l m, i < n -> l < k -> m < k ->
    rsum n (fun j => coef i j * UU j l m) + pull nt nt (lead i XX) Us Us l m + pull N N (Hd i) zu zu l m = r0 O.
  Lemma drc_bound p : p < N -> nth p drc 0%nat < N.
  Proof.
    intros Hp; pose proof (dr_perm L k all0) as P; fold X drc T in P; fold N in P.
    assert (I : In (nth p drc 0%nat) drc) by (apply nth_In; rewrite (Permutation_length P), seq_length; exact Hp).
    apply (Permutation_in _ P), in_seq in I; lia.
  Qed.
  Lemma bends_at before u before' u' after i : bends F O g XX XU UU before u before' u' after -> i < n ->
    after (nth i (order L) 0%nat) =
      bil F O nt nt (XX i) (fun a => before (nth (ns + a) (order L) 0%nat)) (fun a => before' (nth (ns + a) (order L) 0%nat)) +
      rsum nt (fun a => rsum k (fun l => XU i a l * (before (nth (ns + a) (order L) 0%nat) * u' l + before' (nth (ns + a) (order L) 0%nat) * u l))) +
      bil F O k k (UU i) u u'.
  Proof.
    intros B Hi; rewrite <- var_is, (B i) by (rewrite rn_is; exact Hi); rewrite rs_is, Hk.
    unfold bil; rewrite !Sum_rsum; f_equal; f_equal.
    - apply rsum_ext; intros a Ha; rewrite Sum_rsum; apply rsum_ext; intros b Hb; rewrite !state_is by assumption; reflexivity.
    - apply rsum_ext; intros a Ha; rewrite Sum_rsum; apply rsum_ext; intros b Hb; rewrite !state_is by assumption; reflexivity.
  Qed.
  Theorem second_solves : solves_second F O L J H g XX XU UU.
  Proof.
    intros lag u now next D1 D2 lag' u' now' next' D3 D4 now2 carr bent next2 B1 D5 B2 Nx w i Hi.
    unfold w; rewrite Hk; fold T; fold N; rewrite !Sum_rsum.
    change (Sum F O) with rsum; fold (bil F O N N (H i) (argument F L lag now next u) (argument F L lag' now' next' u')).
    rewrite (moved_form i lag u now next lag' u' now' next' D1 D2 D3 D4), jacobian_form.
    destruct sizes_rule as (S1 & S2 & S3).
    pose proof (second_equation F O RT n ns nt nf k N S1 S2 G U (jc i) (jf i) (Hd i)
      (fun p q Hp Hq => Hsym i _ _ Hi (drc_bound p Hp) (drc_bound q Hq)) zx zu XX XU UU Xsym
      (fun a b => Exx i a b Hi) (fun a l => Exu i a l Hi) (fun l m => Euu i l m Hi)
      (fun a => lag (nth (ns + a) (order L) 0%nat)) (fun a => lag' (nth (ns + a) (order L) 0%nat)) u u') as E.
    cbv zeta in E; etransitivity; [|exact E]; clear E; f_equal; f_equal.
    - apply rsum_ext; intros j Hj; f_equal; apply bends_at; assumption.
    - apply rsum_ext; intros f Hf; f_equal.
      assert (Hfo : fore f < n) by (unfold fore; lia).
      rewrite (Nx (nth (fore f) (order L) 0%nat)) by (rewrite rn_is; apply (order_in L k all0), nth_In; rewrite (order_length L k all0); exact Hfo).
      rewrite (decides_still now2 carr (fore f) D5 Hfo), (bends_at now zero now' zero bent (fore f) B2 Hfo).
      rewrite (rsum_all_zero F O RT nt (fun a => rsum k _)) by (intros a _; apply (rsum_all_zero F O RT); intros; ring).
      replace (bil F O k k (UU (fore f)) zero zero) with (r0 O) by (symmetry; apply (rsum_all_zero F O RT); intros a _; apply (rsum_all_zero F O RT); intros; ring).
      fold (fore f).
      match goal with |- ?a + (?b + ?z' + ?z'') = ?c + ?d => transitivity (a + b); [ring|]; f_equal end.
      + apply rsum_ext; intros c Hc; f_equal; apply bends_at; [exact B1|lia].
      + apply bil_ext; [reflexivity| |]; intros c Hc; apply decides_at; try assumption; lia.
  Qed.

  (** ** The term for uncertainty *)
  Definition Hf (i f f' : nat) : F := H i (nth f (not_nan (row_p (dr X))) 0%nat) (nth f' (not_nan (row_p (dr X))) 0%nat).
  Variable V : mat F.
  Variable C : vec F.
  Hypothesis Eun : forall i, i < n ->
    rsum n (fun j => (coef i j + (if n - nf <=? j then jf i (j - (n - nf))%nat else r0 O)) * C j) +
    rsum k (fun l => rsum k (fun m => (rsum nf (fun f => jf i f * UU (fore f) l m) +
      bil F O nf nf (Hf i) (fun f => U (fore f) l) (fun f => U (fore f) m)) * V l m)) = r0 O.
  Lemma lead_sum (h : nat -> F) (y : nat -> F) :
    rsum N (fun p => h p * (if p <? nt then r0 O else if p <? nt + n then r0 O else if p <? nt + n + nf then y (p - nt - n)%nat else r0 O)) =
    rsum nf (fun f => h (nt + n + f)%nat * y f).
  Proof.
    destruct sizes_rule as (S1 & S2 & S3); unfold N; rewrite S3; replace (nt + (n + nf) + k)%nat with (nt + n + (nf + k))%nat by lia.
    rewrite !(rsum_split F O RT).
    rewrite (rsum_all_zero F O RT nt) by (intros p Hp; rewrite (proj2 (Nat.ltb_lt p nt) Hp); ring).
    rewrite (rsum_all_zero F O RT n).
    2: { intros p Hp; rewrite (proj2 (Nat.ltb_ge (nt + p) nt)), (proj2 (Nat.ltb_lt (nt + p) (nt + n))) by lia; ring. }
    rewrite (rsum_all_zero F O RT k).
    2: { intros p Hp; rewrite (proj2 (Nat.ltb_ge (nt + n + (nf + p)) nt)), (proj2 (Nat.ltb_ge (nt + n + (nf + p)) (nt + n))), (proj2 (Nat.ltb_ge (nt + n + (nf + p)) (nt + n + nf))) by lia; ring. }
    rewrite (rsum_ext F O nf _ (fun f => h (nt + n + f)%nat * y f)); [ring|]; intros f Hf'.
    rewrite (proj2 (Nat.ltb_ge (nt + n + f) nt)), (proj2 (Nat.ltb_ge (nt + n + f) (nt + n))), (proj2 (Nat.ltb_lt (nt + n + f) (nt + n + nf))) by lia.
    replace (nt + n + f - nt - n)%nat with f by lia; reflexivity.
  Qed.
  Lemma drc_lead f : f < nf -> nth (nt + n + f) drc 0%nat = nth f (not_nan (row_p (dr X))) 0%nat.
  Proof.
    intros Hf'; destruct sizes_rule as (S1 & S2 & S3); unfold X; rewrite (not_nan_lead L k all0), drc_is.
    rewrite app_nth1 by (rewrite (proj1 (timed_length L k all0)); fold T; lia); unfold timed_columns.
    assert (L1 : List.length (PB L ++ MX L) = nt) by (rewrite app_length; reflexivity).
    assert (L2 : List.length (order L) = n) by exact (order_length L k all0).
    rewrite app_nth2 by (rewrite map_length, L1; lia); rewrite app_nth2 by (rewrite !map_length, L1, L2; lia); rewrite !map_length, L1, L2; f_equal; lia.
  Qed.
  Lemma lead_form i next next' :
    bil F O N N (H i) (argument F L zero zero next zero) (argument F L zero zero next' zero) =
    bil F O nf nf (Hf i) (fun f => next (nth (fore f) (order L) 0%nat)) (fun f => next' (nth (fore f) (order L) 0%nat)).
  Proof.
    unfold bil; rewrite (rsum_perm F O RT N drc) by exact (dr_perm L k all0).
    transitivity (rsum N (fun p => rsum N (fun q => Hd i p q * argument F L zero zero next' zero (nth q drc 0%nat)) * argument F L zero zero next zero (nth p drc 0%nat))).
    { apply rsum_ext; intros p _; rewrite (rsum_perm F O RT N drc) by exact (dr_perm L k all0).
      rewrite <- (rsum_mul_r F O RT); apply rsum_ext; intros q _; unfold Hd; ring. }
    rewrite (rsum_ext F O N _ (fun p => rsum nf (fun f' => Hd i p (nt + n + f')%nat * next' (nth (fore f') (order L) 0%nat)) *
      (if p <? nt then r0 O else if p <? nt + n then r0 O else if p <? nt + n + nf then next (nth (fore (p - nt - n)) (order L) 0%nat) else r0 O))).
    2: { intros p Hp; f_equal; [|apply argument_at, Hp]; rewrite <- (lead_sum (Hd i p) (fun f' => next' (nth (fore f') (order L) 0%nat))).
         apply rsum_ext; intros q Hq; f_equal; apply argument_at, Hq. }
    rewrite (lead_sum (fun p => rsum nf (fun f' => Hd i p (nt + n + f')%nat * next' (nth (fore f') (order L) 0%nat))) (fun f => next (nth (fore f) (order L) 0%nat))).
    apply rsum_ext; intros f Hf'; rewrite <- (rsum_mul_r F O RT); apply rsum_ext; intros f' Hf''; unfold Hd, Hf; rewrite !drc_lead by assumption; ring.
  Qed.
  Lemma fore_sum (w c : vec F) : rsum n (fun j => (if n - nf <=? j then w (j - (n - nf))%nat else r0 O) * c j) = rsum nf (fun f => w f * c (fore f)).
  Proof.
    destruct sizes_rule as (S1 & S2 & S3); replace n with (n - nf + nf)%nat at 1 by lia; rewrite (rsum_split F O RT).
    rewrite (rsum_all_zero F O RT (n - nf)) by (intros j Hj; rewrite (proj2 (Nat.leb_gt (n - nf) j) Hj); ring).
    rewrite (rsum_ext F O nf _ (fun f => w f * c (fore f))); [ring|]; intros f _.
    rewrite (proj2 (Nat.leb_le (n - nf) (n - nf + f))) by lia; replace (n - nf + f - (n - nf))%nat with f by lia; reflexivity.
  Qed.
  Theorem uncertainty_solves : solves_uncertainty F O L J H g UU V C.
  Proof.
    intros now2 carr next2 E1 D E2 reply R w i Hi; unfold w; rewrite Hk; fold T; fold N; rewrite !Sum_rsum.
    change (Sum F O) with rsum; rewrite jacobian_form; destruct sizes_rule as (S1 & S2 & S3).
    assert (Q : forall l m, l < k -> m < k ->
      rsum N (fun c => rsum N (fun d => H i c d * (argument F L zero zero (reply l) zero c * argument F L zero zero (reply m) zero d))) =
      bil F O nf nf (Hf i) (fun f => U (fore f) l) (fun f => U (fore f) m)).
    { intros l m Hl Hm; fold (bil F O N N (H i) (argument F L zero zero (reply l) zero) (argument F L zero zero (reply m) zero)); rewrite lead_form.
      assert (Y : forall l f, l < k -> f < nf -> reply l (nth (fore f) (order L) 0%nat) = U (fore f) l).
      { clear l m Hl Hm; intros l f Hl Hf'; rewrite (decides_at zero _ (reply l) (fore f) (R l ltac:(rewrite Hk; exact Hl))) by (unfold fore; lia).
        rewrite (rsum_all_zero F O RT nt) by (intros; ring); rewrite (rsum_single F O RT k l); [rewrite Nat.eqb_refl; ring|exact Hl|].
        intros m _ Nm; rewrite (proj2 (Nat.eqb_neq m l) Nm); ring. }
      apply bil_ext; [reflexivity| |]; intros; apply Y; assumption. }
    rewrite (rsum_ext F O k _ (fun l => rsum k (fun m => V l m * bil F O nf nf (Hf i) (fun f => U (fore f) l) (fun f => U (fore f) m)))).
    2: { intros l Hl; apply rsum_ext; intros m Hm; rewrite (Q l m Hl Hm); reflexivity. }
    assert (A1 : rsum n (fun j => jc i j * now2 (nth j (order L) 0%nat)) = rsum n (fun j => jc i j * C j)).
    { apply rsum_ext; intros j Hj; rewrite <- (E1 j), var_is by (rewrite rn_is; exact Hj); reflexivity. }
    assert (A2 : rsum nf (fun f => jf i f * next2 (nth (fore f) (order L) 0%nat)) =
      rsum nf (fun f => jf i f * rsum nt (fun c => G (fore f) c * C (ns + c)%nat)) + (rsum nf (fun f => jf i f * C (fore f)) +
      rsum k (fun l => rsum k (fun m => rsum nf (fun f => jf i f * UU (fore f) l m) * V l m)))).
    { transitivity (rsum nf (fun f => jf i f * rsum nt (fun c => G (fore f) c * C (ns + c)%nat)) + (rsum nf (fun f => jf i f * C (fore f)) +
        rsum nf (fun f => jf i f * rsum k (fun l => rsum k (fun m => UU (fore f) l m * V l m))))).
      - rewrite <- !(rsum_add F O RT); apply rsum_ext; intros f Hf'; rewrite <- var_is; assert (Hfo : fore f < n) by (unfold fore; lia).
        rewrite (E2 (fore f)) by (rewrite rn_is; exact Hfo); rewrite var_is, (decides_still now2 carr (fore f) D Hfo), Hk.
        change (Sum F O) with rsum.
        rewrite (rsum_ext F O nt _ (fun c => G (fore f) c * C (ns + c)%nat)); [ring|].
        intros c Hc; rewrite <- var_is, E1 by (rewrite rn_is; lia); reflexivity.
      - f_equal; f_equal.
        transitivity (rsum nf (fun f => rsum k (fun l => rsum k (fun m => jf i f * UU (fore f) l m * V l m)))).
        { apply rsum_ext; intros f _; rewrite <- (rsum_mul_l F O RT); apply rsum_ext; intros l _; rewrite <- (rsum_mul_l F O RT); apply rsum_ext; intros m _; ring. }
        rewrite (rsum_swap F O RT); apply rsum_ext; intros l _; rewrite (rsum_swap F O RT); apply rsum_ext; intros m _; apply (rsum_mul_r F O RT). }
    rewrite A1, A2; clear A1 A2; rewrite <- (Eun i Hi).
    assert (A3 : rsum n (fun j => (coef i j + (if n - nf <=? j then jf i (j - (n - nf))%nat else r0 O)) * C j) =
      rsum n (fun j => jc i j * C j) + rsum nf (fun f => jf i f * rsum nt (fun c => G (fore f) c * C (ns + c)%nat)) + rsum nf (fun f => jf i f * C (fore f))).
    { rewrite <- (fore_sum (jf i) C); pose proof (carried F O RT n ns nt nf S1 S2 G (jc i) (jf i) C) as K; cbv zeta in K; fold fore in K.
      transitivity (rsum n (fun j => coef i j * C j) + rsum n (fun j => (if n - nf <=? j then jf i (j - (n - nf))%nat else r0 O) * C j)).
      - rewrite <- (rsum_add F O RT); apply rsum_ext; intros j _; ring.
      - f_equal; symmetry; exact K. }
    rewrite A3; clear A3.
    assert (A4 : rsum k (fun l => rsum k (fun m => (rsum nf (fun f => jf i f * UU (fore f) l m) +
      bil F O nf nf (Hf i) (fun f => U (fore f) l) (fun f => U (fore f) m)) * V l m)) =
      rsum k (fun l => rsum k (fun m => rsum nf (fun f => jf i f * UU (fore f) l m) * V l m)) +
      rsum k (fun l => rsum k (fun m => V l m * bil F O nf nf (Hf i) (fun f => U (fore f) l) (fun f => U (fore f) m)))).
    { rewrite <- (rsum_add F O RT); apply rsum_ext; intros l _; rewrite <- (rsum_add F O RT); apply rsum_ext; intros m _; ring. }
    rewrite A4; ring.
  Qed.
End Rule.
