(** Property C34: the covariance matrix of the shocks. *)
From Verif Require Import Base Syntax Lexer Parser Eval Semantics Factory Indexing Vars SigmaSpec SigmaProofs
  PropParser PropFile.

(** C34. The shocks have different names and no shock is paired with itself; all have a
    variance.  The matrix is symmetric, has the variances on its diagonal, is zero for
    pairs nobody states, and holds what is stated for the others; where both shocks of
    a pair state something, the one declared later counts.  Missing: see the
    refutations. *)
Theorem C34_covariance_partial :
  forall (V : Type) (zero : V) (O : ops V) (isnum : V -> bool) (stoch : list (svar V)) (m : matrix V),
    NoDup (map sv_name stoch) ->
    (forall k, In k stoch -> sv_other k <> sv_name k) ->
    (forall k, In k stoch -> exists v, sv_variance k = Some v /\ isnum v = true) ->
    define_sigma V zero O isnum stoch = Ok m ->
    (forall i j, m i j = m j i) /\
    (forall i k v, nth_error stoch i = Some k -> sv_variance k = Some v -> m i i = v) /\
    (forall i j, i <> j -> ~ states V isnum stoch i j -> ~ states V isnum stoch j i -> m i j = zero) /\
    (forall i j, states V isnum stoch i j -> (states V isnum stoch j i -> j < i) ->
       stated V O isnum stoch i j (m i j)).
Proof.
  intros V zero O isnum stoch m Hnd Hself Hvar H.
  destruct (sigma_good V zero O isnum stoch Hnd Hself Hvar m H) as (H1 & H2 & H3 & H4).
  split; [exact H2|]; split; [exact H1|]; split.
  - intros i j Hij Hi Hj; apply H3; auto.
  - intros i j Hs Hlast; apply H4; [|exact Hs|auto].
    destruct Hs as (k & k' & Hk & _); apply nth_error_Some; congruence.
Qed.
Print Assumptions C34_covariance_partial.

(** With exact arithmetic a stated correlation is the covariance divided by the two
    standard deviations. *)
Theorem C34_correlation :
  forall (V : Type) (zero : V) (O : ops V) (isnum : V -> bool) (mul : V -> V -> V) (root : V -> V)
         (stoch : list (svar V)) (m : matrix V),
    (forall a b, isnum a = true -> isnum b = true -> o_bin O BMul a b = Ok (mul a b) /\ isnum (mul a b) = true) ->
    (forall a, isnum a = true -> o_fun O "sqrt" a = Ok (root a) /\ isnum (root a) = true) ->
    (forall a b, isnum a = true -> isnum b = true -> root (mul a b) = mul (root a) (root b)) ->
    NoDup (map sv_name stoch) ->
    (forall k, In k stoch -> sv_other k <> sv_name k) ->
    (forall k, In k stoch -> exists v, sv_variance k = Some v /\ isnum v = true) ->
    (exists m, define_sigma V zero O isnum stoch = Ok m) /\
    forall i j k k' vi vj r,
      define_sigma V zero O isnum stoch = Ok m ->
      nth_error stoch i = Some k -> nth_error stoch j = Some k' -> sv_other k = sv_name k' ->
      sv_variance k = Some vi -> sv_variance k' = Some vj ->
      sv_cov k = None -> sv_corr k = Some r -> isnum r = true -> sv_other k' <> sv_name k ->
      m i j = mul (mul (root vi) (root vj)) r /\ m j i = m i j.
Proof.
  intros V zero O isnum mul root stoch m Hmul Hroot Hrm Hnd Hself Hvar; split.
  { apply sigma_total; [exact Hnd|exact Hself|exact Hvar| |].
    - intros a b Ha Hb; destruct (Hmul a b Ha Hb); eauto.
    - intros a Ha; destruct (Hroot a Ha); eauto. }
  intros i j k k' vi vj r Hm Hk Hk' Ho Hvi Hvj Hcov Hcorr Hr Hno.
  destruct (C34_covariance_partial V zero O isnum stoch m Hnd Hself Hvar Hm) as (Hsym & _ & _ & Hst).
  split; [|apply Hsym].
  assert (S : stated V O isnum stoch i j (m i j)).
  { apply Hst.
    - exists k, k'; split; [exact Hk|]; split; [exact Hk'|]; split; [exact Ho|]; right; eauto.
    - intros (q & q' & Hq & Hq' & Hqo & _); congruence. }
  destruct S as [q q' c Hq Hq' Hqo Hc _|q q' r' wi wj p s c Hq Hq' Hqo Hqc Hqr Hn Hwi Hwj Hp Hs Hc].
  - congruence.
  - assert (q = k) by congruence; subst q.
    assert (q' = k') by congruence; subst q'.
    rewrite Hcorr in Hqr; injection Hqr as <-.
    rewrite Hvi in Hwi; injection Hwi as <-.
    rewrite Hvj in Hwj; injection Hwj as <-.
    destruct (Hvar k (nth_error_In _ _ Hk)) as (v1 & E1 & N1); rewrite Hvi in E1; injection E1 as <-.
    destruct (Hvar k' (nth_error_In _ _ Hk')) as (v2 & E2 & N2); rewrite Hvj in E2; injection E2 as <-.
    destruct (Hmul vi vj N1 N2) as [M1 M2]; rewrite M1 in Hp; injection Hp as <-.
    destruct (Hroot _ M2) as [R1 R2]; rewrite R1 in Hs; injection Hs as <-.
    destruct (Hmul _ r R2 Hr) as [M3 _]; rewrite M3 in Hc; injection Hc as <-.
    rewrite Hrm by assumption; reflexivity.
Qed.
Print Assumptions C34_correlation.

(** The full claim is false.  A file that states two correlations for a shock loses
    the first; a shock paired with itself loses its variance; a shock that appears
    with a correlation but without a variance makes the matrix fail. *)
Definition osigma (o : outline (option Z)) : res (matrix (option Z)) :=
  do ss <- create_stoch _ (Some 1%Z) (o_stoch _ o) (outline_shocks o);
  define_sigma _ (Some 0%Z) OZ (fun v => match v with Some _ => true | None => false end) ss.
Theorem C34_refuted :
  (exists o m, oread "var x; varexo e u w; model; x = e + u + w; end; shocks; var e, u = 2; var e, w = 3; end;" = Ok o /\
     osigma o = Ok m /\ m 0 1 = Some 0%Z /\ m 0 2 = Some 3%Z) /\
  (exists o m, oread "var x; varexo e; model; x = e; end; shocks; var e = 4; var e, e = 2; end;" = Ok o /\
     osigma o = Ok m /\ m 0 0 = Some 2%Z) /\
  (exists o, oread "var x; varexo e u; model; x = e + u; end; shocks; var u = 4; corr e, u = 2; end;" = Ok o /\
     osigma o = Err TypeErr).
Proof.
  split; [|split].
  - do 2 eexists; split; [vm_compute; reflexivity|]; split; [vm_compute; reflexivity|]; split; vm_compute; reflexivity.
  - do 2 eexists; split; [vm_compute; reflexivity|]; split; vm_compute; reflexivity.
  - eexists; split; vm_compute; reflexivity.
Qed.
Print Assumptions C34_refuted.

Example C34_nonvacuous :
  let stoch := [Svar "e" "u" (Some (Some 9)) (Some (Some 4)) None; Svar "u" "" (Some (Some 4)) None None;
                Svar "w" "e" (Some (Some 2)) None (Some (Some 7))]%Z%string in
  (exists o, oread sample = Ok o /\ exists m, osigma o = Ok m /\ m 0 0 = Some 9%Z /\ m 0 1 = Some 144%Z) /\
  NoDup (map sv_name stoch) /\ (forall k, In k stoch -> sv_other k <> sv_name k) /\
  exists m, define_sigma _ (Some 0%Z) OZ (fun v => match v with Some _ => true | None => false end) stoch = Ok m /\
    m 0 1 = Some 144%Z /\ m 0 2 = Some 7%Z /\ m 1 2 = Some 0%Z.
Proof.
  split; [|split; [|split]].
  - eexists; split; [vm_compute; reflexivity|]; eexists; split; [vm_compute; reflexivity|]; split; vm_compute; reflexivity.
  - cbn [map sv_name]; repeat (constructor; [cbn; intuition discriminate|]); constructor.
  - intros k [<-|[<-|[<-|[]]]]; cbn [sv_other sv_name]; discriminate.
  - eexists; split; [vm_compute; reflexivity|]; split; [|split]; vm_compute; reflexivity.
Qed.
