(** Algebra of the second-order equations. *)
From Verif Require Import Base Nd NdProofs Mat MatProofs SimSpec.

Section Bilinear.
  Variable F : Type.
  Variable O : rops F.
  Hypothesis RT : is_ring O.
  Let RT' : ring_theory (r0 O) (r1 O) (radd O) (rmul O) (rsub O) (ropp O) eq := RT.
  Add Ring BilRing : RT'.
  Local Notation "x + y" := (radd O x y).
  Local Notation "x * y" := (rmul O x y).
  Local Notation rsum := (rsum F O).

  (** Bilinear forms. *)
  Definition bil (p q : nat) (K : mat F) (x y : vec F) : F := rsum p (fun c => rsum q (fun d => K c d * (x c * y d))).
  Lemma bil_ext p q K K' x x' y y' : (forall c d, c < p -> d < q -> K c d = K' c d) -> (forall c, c < p -> x c = x' c) -> (forall d, d < q -> y d = y' d) ->
    bil p q K x y = bil p q K' x' y'.
  Proof.
    intros H1 H2 H3; apply rsum_ext; intros c Hc; apply rsum_ext; intros d Hd; rewrite H1, H2, H3 by assumption; reflexivity.
  Qed.
  Lemma bil_add_K p q K K' x y : bil p q (fun c d => K c d + K' c d) x y = bil p q K x y + bil p q K' x y.
  Proof.
    unfold bil; rewrite <- (rsum_add F O RT); apply rsum_ext; intros c _; rewrite <- (rsum_add F O RT); apply rsum_ext; intros d _; ring.
  Qed.
  Lemma bil_add_l p q K x x' y : bil p q K (fun c => x c + x' c) y = bil p q K x y + bil p q K x' y.
  Proof.
    unfold bil; rewrite <- (rsum_add F O RT); apply rsum_ext; intros c _; rewrite <- (rsum_add F O RT); apply rsum_ext; intros d _; ring.
  Qed.
  Lemma bil_add_r p q K x y y' : bil p q K x (fun d => y d + y' d) = bil p q K x y + bil p q K x y'.
  Proof.
    unfold bil; rewrite <- (rsum_add F O RT); apply rsum_ext; intros c _; rewrite <- (rsum_add F O RT); apply rsum_ext; intros d _; ring.
  Qed.
  Lemma bil_swap p q K x y : bil p q K x y = bil q p (mtr F K) y x.
  Proof.
    unfold bil, mtr; rewrite (rsum_swap F O RT); apply rsum_ext; intros d _; apply rsum_ext; intros c _; ring.
  Qed.
  Lemma bil_zero p q K x y : (forall c d, c < p -> d < q -> K c d = r0 O) -> bil p q K x y = r0 O.
  Proof. intros H; apply (rsum_all_zero F O RT); intros c Hc; apply (rsum_all_zero F O RT); intros d Hd; rewrite H by assumption; ring. Qed.
  (** The form of two linear images. *)
  Definition pull (p q : nat) (K G U : mat F) : mat F := fun a b => bil p q K (fun c => G c a) (fun d => U d b).
  Lemma bil_image p q r s K G U x y :
    bil p q K (fun c => rsum r (fun a => G c a * x a)) (fun d => rsum s (fun b => U d b * y b)) = bil r s (pull p q K G U) x y.
  Proof.
    unfold bil, pull, bil.
    transitivity (rsum p (fun c => rsum q (fun d => rsum r (fun a => rsum s (fun b => K c d * (G c a * U d b) * (x a * y b)))))).
    - apply rsum_ext; intros c _; apply rsum_ext; intros d _.
      transitivity (rsum r (fun a => K c d * (G c a * x a * rsum s (fun b => U d b * y b)))).
      + rewrite (rsum_mul_l F O RT), (rsum_mul_r F O RT); reflexivity.
      + apply rsum_ext; intros a _; rewrite <- !(rsum_mul_l F O RT); apply rsum_ext; intros b _; ring.
    - transitivity (rsum p (fun c => rsum r (fun a => rsum q (fun d => rsum s (fun b => K c d * (G c a * U d b) * (x a * y b)))))).
      { apply rsum_ext; intros c _; apply (rsum_swap F O RT). }
      rewrite (rsum_swap F O RT); apply rsum_ext; intros a _.
      transitivity (rsum p (fun c => rsum s (fun b => rsum q (fun d => K c d * (G c a * U d b) * (x a * y b))))).
      { apply rsum_ext; intros c _; apply (rsum_swap F O RT). }
      rewrite (rsum_swap F O RT); apply rsum_ext; intros b _.
      rewrite <- (rsum_mul_r F O RT); apply rsum_ext; intros c _; rewrite <- (rsum_mul_r F O RT); apply rsum_ext; intros d _; ring.
  Qed.
  Lemma bil_pair p q K r s G U x u x' u' :
    bil p q K (fun c => rsum r (fun a => G c a * x a) + rsum s (fun l => U c l * u l))
              (fun d => rsum r (fun a => G d a * x' a) + rsum s (fun l => U d l * u' l)) =
    bil r r (pull p q K G G) x x' + bil r s (pull p q K G U) x u' + (bil s r (pull p q K U G) u x' + bil s s (pull p q K U U) u u').
  Proof.
    rewrite bil_add_l, (bil_add_r p q K (fun c => rsum r (fun a => G c a * x a))), (bil_add_r p q K (fun c => rsum s (fun l => U c l * u l))), !bil_image; ring.
  Qed.
  Lemma pull_swap p K G U a b : (forall c d, c < p -> d < p -> K c d = K d c) -> pull p p K G U a b = pull p p K U G b a.
  Proof.
    intros HK; unfold pull; rewrite bil_swap; apply bil_ext; try reflexivity; intros c d Hc Hd; unfold mtr; apply HK; assumption.
  Qed.
  (** A weighted sum of forms. *)
  Lemma bil_sum n p q (w : vec F) (K : nat -> mat F) x y :
    rsum n (fun j => w j * bil p q (K j) x y) = bil p q (fun c d => rsum n (fun j => w j * K j c d)) x y.
  Proof.
    unfold bil; transitivity (rsum n (fun j => rsum p (fun c => rsum q (fun d => w j * K j c d * (x c * y d))))).
    { apply rsum_ext; intros j _; rewrite <- (rsum_mul_l F O RT); apply rsum_ext; intros c _; rewrite <- (rsum_mul_l F O RT); apply rsum_ext; intros d _; ring. }
    rewrite (rsum_swap F O RT); apply rsum_ext; intros c _; rewrite (rsum_swap F O RT); apply rsum_ext; intros d _.
    rewrite <- (rsum_mul_r F O RT); reflexivity.
  Qed.

  Lemma distr_l a b c : a * (b + c) = a * b + a * c.
  Proof. ring. Qed.

  (** ** One equation *)
  Section Equation.
    (** [n] variables, [nt] states of which the first is at [ns], [nf] leads, the last
        variables; [ne] shocks; [N] arguments. *)
    Variables n ns nt nf ne N : nat.
    Hypothesis Hst : ns + nt <= n.
    Hypothesis Hfo : nf <= n.
    Let fore f := (n - nf + f)%nat.
    Variables gy gu : mat F.
    (** Derivatives of one equation in today's variables, in tomorrow's, and twice. *)
    Variables jc jf : vec F.
    Variable H : mat F.
    Hypothesis Hsym : forall p q, p < N -> q < N -> H p q = H q p.
    Variables zx zu : mat F.
    Variables XX XU UU : nat -> mat F.
    Hypothesis Xsym : forall j a b, j < n -> a < nt -> b < nt -> XX j a b = XX j b a.
    Definition coef (j : nat) : F := jc j + (if (ns <=? j) && (j <? ns + nt) then rsum nf (fun f => jf f * gy (fore f) (j - ns)%nat) else r0 O).
    Definition lead (K : nat -> mat F) : mat F := fun c d => rsum nf (fun f => jf f * K (fore f) c d).
    Let G : mat F := fun c a => gy (ns + c)%nat a.
    Let U : mat F := fun c l => gu (ns + c)%nat l.
    Hypothesis Exx : forall a b, a < nt -> b < nt ->
      rsum n (fun j => coef j * XX j a b) + pull nt nt (lead XX) G G a b + pull N N H zx zx a b = r0 O.
    Hypothesis Exu : forall a l, a < nt -> l < ne ->
      rsum n (fun j => coef j * XU j a l) + pull nt nt (lead XX) G U a l + pull N N H zx zu a l = r0 O.
    Hypothesis Euu : forall l m, l < ne -> m < ne ->
      rsum n (fun j => coef j * UU j l m) + pull nt nt (lead XX) U U l m + pull N N H zu zu l m = r0 O.

    (** Today's variables, weighted, with what they carry to tomorrow. *)
    Lemma carried (y : vec F) :
      rsum n (fun j => jc j * y j) + rsum nf (fun f => jf f * rsum nt (fun c => gy (fore f) c * y (ns + c)%nat)) = rsum n (fun j => coef j * y j).
    Proof.
      assert (E : rsum n (fun j => coef j * y j) = rsum n (fun j => jc j * y j) +
        rsum n (fun j => (if (ns <=? j) && (j <? ns + nt) then rsum nf (fun f => jf f * gy (fore f) (j - ns)%nat) else r0 O) * y j)).
      { rewrite <- (rsum_add F O RT); apply rsum_ext; intros j _; unfold coef; ring. }
      rewrite E; f_equal.
      replace n with (ns + (nt + (n - ns - nt)))%nat by lia; rewrite !(rsum_split F O RT).
      replace (ns + (nt + (n - ns - nt)))%nat with n by lia.
      rewrite (rsum_all_zero F O RT ns) by (intros j Hj; rewrite (proj2 (Nat.leb_gt ns j) Hj); cbn [andb]; ring).
      rewrite (rsum_all_zero F O RT (n - ns - nt)).
      2: { intros j Hj; rewrite (proj2 (Nat.ltb_ge (ns + (nt + j)) (ns + nt))) by lia; rewrite andb_false_r; ring. }
      transitivity (rsum nt (fun c => rsum nf (fun f => jf f * gy (fore f) c) * y (ns + c)%nat)).
      - transitivity (rsum nt (fun c => rsum nf (fun f => jf f * gy (fore f) c * y (ns + c)%nat))).
        + rewrite (rsum_swap F O RT); apply rsum_ext; intros f _; rewrite <- (rsum_mul_l F O RT); apply rsum_ext; intros c _; ring.
        + apply rsum_ext; intros c _; rewrite <- (rsum_mul_r F O RT); apply rsum_ext; intros f _; ring.
      - match goal with |- ?l = _ => transitivity (r0 O + (l + r0 O)); [ring|] end; f_equal; f_equal; apply rsum_ext; intros c Hc.
        rewrite (proj2 (Nat.leb_le ns (ns + c))), (proj2 (Nat.ltb_lt (ns + c) (ns + nt))) by lia; cbn [andb].
        replace (ns + c - ns)%nat with c by lia; reflexivity.
    Qed.

    Variables x x' u u' : vec F.
    Let now c := rsum nt (fun a => gy c a * x a) + rsum ne (fun l => gu c l * u l).
    Let now' c := rsum nt (fun a => gy c a * x' a) + rsum ne (fun l => gu c l * u' l).
    Let now2 j := bil nt nt (XX j) x x' + rsum nt (fun a => rsum ne (fun l => XU j a l * (x a * u' l + x' a * u l))) + bil ne ne (UU j) u u'.
    Let next2 f := rsum nt (fun c => gy (fore f) c * now2 (ns + c)%nat) + bil nt nt (XX (fore f)) (fun c => now (ns + c)%nat) (fun c => now' (ns + c)%nat).
    Let z p := rsum nt (fun a => zx p a * x a) + rsum ne (fun l => zu p l * u l).
    Let z' p := rsum nt (fun a => zx p a * x' a) + rsum ne (fun l => zu p l * u' l).
    Lemma cross j : rsum nt (fun a => rsum ne (fun l => XU j a l * (x a * u' l + x' a * u l))) = bil nt ne (XU j) x u' + bil ne nt (mtr F (XU j)) u x'.
    Proof.
      rewrite (bil_swap ne nt); unfold bil, mtr; rewrite <- (rsum_add F O RT); apply rsum_ext; intros a _; rewrite <- (rsum_add F O RT); apply rsum_ext; intros l _; ring.
    Qed.
    Theorem second_equation : rsum n (fun j => jc j * now2 j) + rsum nf (fun f => jf f * next2 f) + bil N N H z z' = r0 O.
    Proof.
      assert (E1 : rsum nf (fun f => jf f * next2 f) = rsum nf (fun f => jf f * rsum nt (fun c => gy (fore f) c * now2 (ns + c)%nat)) +
        bil nt nt (lead XX) (fun c => now (ns + c)%nat) (fun c => now' (ns + c)%nat)).
      { unfold lead; rewrite <- bil_sum, <- (rsum_add F O RT); apply rsum_ext; intros f _.
        change (fun c d => XX (fore f) c d) with (XX (fore f)); unfold next2; apply distr_l. }
      assert (E2 : rsum n (fun j => coef j * now2 j) =
        bil nt nt (fun a b => rsum n (fun j => coef j * XX j a b)) x x' + bil nt ne (fun a l => rsum n (fun j => coef j * XU j a l)) x u' +
        (bil ne nt (fun l a => rsum n (fun j => coef j * XU j a l)) u x' + bil ne ne (fun l m => rsum n (fun j => coef j * UU j l m)) u u')).
      { rewrite <- !bil_sum, <- !(rsum_add F O RT); apply rsum_ext; intros j _; unfold now2; rewrite cross; unfold mtr; ring. }
      rewrite E1; clear E1.
      replace (bil nt nt (lead XX) (fun c => now (ns + c)%nat) (fun c => now' (ns + c)%nat)) with
        (bil nt nt (pull nt nt (lead XX) G G) x x' + bil nt ne (pull nt nt (lead XX) G U) x u' +
         (bil ne nt (pull nt nt (lead XX) U G) u x' + bil ne ne (pull nt nt (lead XX) U U) u u')) by (symmetry; apply bil_pair).
      unfold z, z'; rewrite bil_pair.
      pose proof (carried now2) as E3; rewrite E2 in E3; clear E2.
      set (a1 := rsum n (fun j => jc j * now2 j)) in *; set (a2 := rsum nf (fun f => jf f * rsum nt (fun c => gy (fore f) c * now2 (ns + c)%nat))) in *.
      match type of E3 with _ = (?b1 + ?b2 + (?b3 + ?b4)) =>
      match goal with |- a1 + (a2 + (?c1 + ?c2 + (?c3 + ?c4))) + (?d1 + ?d2 + (?d3 + ?d4)) = _ =>
        assert (Z1 : b1 + c1 + d1 = r0 O); [|assert (Z2 : b2 + c2 + d2 = r0 O); [|assert (Z3 : b3 + c3 + d3 = r0 O); [|assert (Z4 : b4 + c4 + d4 = r0 O); [|
          transitivity ((a1 + a2) + (c1 + c2 + (c3 + c4)) + (d1 + d2 + (d3 + d4))); [ring|]; rewrite E3;
          transitivity ((b1 + c1 + d1) + (b2 + c2 + d2) + ((b3 + c3 + d3) + (b4 + c4 + d4))); [ring|]; rewrite Z1, Z2, Z3, Z4; ring]]]]
      end end; clear E3 a1 a2.
      - rewrite <- !bil_add_K; apply bil_zero; exact Exx.
      - rewrite <- !bil_add_K; apply bil_zero; exact Exu.
      - rewrite <- !bil_add_K; apply bil_zero; intros l a Hl Ha; rewrite (pull_swap nt (lead XX) U G l a), (pull_swap N H zu zx l a); [apply Exu; assumption|exact Hsym|].
        intros c d Hc Hd; apply rsum_ext; intros f Hf; rewrite Xsym by (try assumption; unfold fore; lia); reflexivity.
      - rewrite <- !bil_add_K; apply bil_zero; exact Euu.
    Qed.
  End Equation.
End Bilinear.
