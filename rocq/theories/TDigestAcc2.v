(** Accuracy of a t-digest built by one [add_buffer], for the scale functions: absolute and relative bounds. *)
From Coq Require Import List Arith ZArith Lia Bool Permutation Sorted Reals Lra.
From Flocq Require Import Core.
From Verif Require Import Base Floats XReal Digest TDigest Spec FloatFacts TDigestExact TDigestExactQ TDigestExactV TDigestTop ScaleFunctions ScaleProofs TDigestScale TDigestAcc.
Set Implicit Arguments.
Local Open Scope R_scope.

Lemma near_uniform v gs e W : near v gs 0 e -> (forall g, In g gs -> size g <= W) -> 0 <= W ->
  below v (concat gs) - 3 / 2 * W <= e <= upto v (concat gs) + 3 / 2 * W.
Proof.
  intros [H|(pre & seg & post & -> & _ & _ & _ & _ & H)] HW H0; [lra|].
  specialize (H W (fun g Hg => HW g (in_or_app _ _ _ (or_intror (in_or_app _ _ _ (or_introl Hg)))))). lra.
Qed.

(** ** groups and the scale function *)
Section Steps.
  Variables (L : R -> xr) (l : list R) (gs : list (list R)).
  Hypothesis HP : Permutation (concat gs) l.
  Hypothesis Hg : grouped gs.
  Hypothesis HL : greedy L (size l) 0 (map (map ucen) gs).

  Lemma wt_units g : Wt (map ucen g) = size g.
  Proof. apply ucen_sums. Qed.
  Lemma group_step pre g post : gs = pre ++ g :: post -> (2 <= length g)%nat ->
    0 <= size (concat pre) / size l /\ size (concat pre) / size l < (size (concat pre) + size g) / size l /\
    (size (concat pre) + size g) / size l <= 1 /\ 0 < size l /\
    fle (XFin ((size (concat pre) + size g) / size l)) (L (size (concat pre) / size l)) = true.
  Proof.
    intros E H2. assert (size l = size (concat pre) + size g + size (concat post)) as El.
    { rewrite <- (Permutation_length HP), E, concat_app. cbn [concat]. rewrite !size_app. ring. }
    pose proof (le_INR _ _ H2) as H2'. change (INR 2) with 2 in H2'. pose proof (pos_INR (length (concat pre))). pose proof (pos_INR (length (concat post))).
    assert (0 < size l) as Hl by lra.
    split; [apply Rmult_le_pos; [lra|apply Rlt_le, Rinv_0_lt_compat; lra]|].
    split; [apply Rmult_lt_compat_r; [apply Rinv_0_lt_compat; lra|lra]|].
    split; [apply Rmult_le_reg_r with (size l); [lra|]; replace ((size (concat pre) + size g) / size l * size l) with (size (concat pre) + size g) by (field; lra); lra|].
    split; [exact Hl|].
    pose proof (@greedy_fits L (size l) _ 0 HL (map (map ucen) pre) (map ucen g) (map (map ucen) post)) as H3.
    rewrite E, map_app in H3. specialize (H3 eq_refl). rewrite map_length in H3. specialize (H3 H2).
    rewrite wt_units, <- concat_map, wt_units, Rplus_0_l in H3. exact H3.
  Qed.

  Lemma group_cases pre g post : gs = pre ++ g :: post -> size g = 1 \/ (2 <= length g)%nat.
  Proof.
    intros E. destruct Hg as [Hn _]. rewrite E in Hn. apply Forall_app in Hn as [_ Hn]. inversion Hn as [|? ? Hne _]; subst.
    destruct g as [|x [|y g]]; [congruence|left; reflexivity|right; cbn [length]; lia].
  Qed.

  (** absolute: a step is at most [lam] wide *)
  Lemma weights_abs lam : (forall q q', 0 <= q -> q < q' -> q' <= 1 -> fle (XFin q') (L q) = true -> q' - q <= lam) ->
    forall g, In g gs -> size g <= Rmax 1 (lam * size l).
  Proof.
    intros Hlam g Hin. apply in_split in Hin as (pre & post & E). destruct (group_cases _ _ _ E) as [->|H2]; [apply Rmax_l|].
    destruct (group_step _ _ _ E H2) as (A & B & C & D & F). specialize (Hlam _ _ A B C F).
    apply Rle_trans with (lam * size l); [|apply Rmax_r].
    replace (size g) with (((size (concat pre) + size g) / size l - size (concat pre) / size l) * size l) by (field; lra).
    apply Rmult_le_compat_r; lra.
  Qed.

  (** relative: a step multiplies the odds' sides by at most [rho] *)
  Section Low.
    Variable rho : R.
    Hypothesis Hrho : 1 <= rho.
    Hypothesis Hlow : forall q q', 0 <= q -> q < q' -> q' <= 1 -> fle (XFin q') (L q) = true -> q' <= rho * q.

    Lemma group_low pre g post : gs = pre ++ g :: post -> size (concat pre) + size g <= rho * size (concat pre) + 1.
    Proof.
      intros E. pose proof (pos_INR (length (concat pre))) as Hp. destruct (group_cases _ _ _ E) as [->|H2]; [nra|].
      destruct (group_step _ _ _ E H2) as (A & B & C & D & F). specialize (Hlow A B C F).
      apply (Rmult_le_compat_r (size l)) in Hlow; [|lra].
      replace ((size (concat pre) + size g) / size l * size l) with (size (concat pre) + size g) in Hlow by (field; lra).
      replace (rho * (size (concat pre) / size l) * size l) with (rho * size (concat pre)) in Hlow by (field; lra). lra.
    Qed.
    Lemma seg_low pre seg post : gs = pre ++ seg ++ post -> (length seg <= 2)%nat ->
      size (concat pre) + size (concat seg) <= rho * rho * size (concat pre) + rho + 1.
    Proof.
      intros E Hs. pose proof (pos_INR (length (concat pre))) as Hp.
      assert (size (concat pre) <= rho * size (concat pre)) as H1 by nra.
      destruct seg as [|g [|d [|? ?]]]; [| | |cbn in Hs; lia].
      - cbn [concat length INR]. nra.
      - cbn [concat]. rewrite app_nil_r. pose proof (group_low pre g post E). nra.
      - cbn [concat]. rewrite app_nil_r, size_app. pose proof (group_low pre g (d :: post) E) as H2.
        pose proof (group_low (pre ++ [g]) d post) as H3. rewrite <- app_assoc in H3. specialize (H3 E).
        rewrite concat_app, size_app in H3. cbn [concat] in H3. rewrite app_nil_r in H3. nra.
    Qed.
    Lemma near_low v e : near v gs 0 e ->
      e <= rho * rho * upto v l + rho + 1 /\ below v l <= rho * rho * e + rho + 1.
    Proof.
      intros H. rewrite <- (below_perm v HP), <- (upto_perm v HP).
      pose proof (below_le v (concat gs)). pose proof (upto_le v (concat gs)). pose proof (below_upto v (concat gs)).
      assert (1 <= rho * rho) as Hrr by nra.
      destruct H as [H|(pre & seg & post & E & Hs & He & Hu & Hb & _)]; [nra|].
      pose proof (seg_low _ _ _ E Hs). pose proof (pos_INR (length (concat pre))). split.
      - assert (rho * rho * size (concat pre) <= rho * rho * upto v (concat gs)) by (apply Rmult_le_compat_l; lra). lra.
      - assert (rho * rho * size (concat pre) <= rho * rho * e) by (apply Rmult_le_compat_l; lra). lra.
    Qed.
  End Low.

  Section High.
    Variable rho : R.
    Hypothesis Hrho : 1 <= rho.
    Hypothesis Hhigh : forall q q', 0 <= q -> q < q' -> q' <= 1 -> fle (XFin q') (L q) = true -> 1 - q <= rho * (1 - q').

    Lemma rest_size pre post : gs = pre ++ post -> size l = size (concat pre) + size (concat post).
    Proof. intros E. rewrite <- (Permutation_length HP), E, concat_app, size_app. reflexivity. Qed.
    Lemma group_high pre g post : gs = pre ++ g :: post -> size g + size (concat post) <= rho * size (concat post) + 1.
    Proof.
      intros E. pose proof (pos_INR (length (concat post))) as Hp. destruct (group_cases _ _ _ E) as [->|H2]; [nra|].
      pose proof (rest_size _ _ E) as El. cbn [concat] in El. rewrite size_app in El.
      destruct (group_step _ _ _ E H2) as (A & B & C & D & F). specialize (Hhigh A B C F).
      apply (Rmult_le_compat_r (size l)) in Hhigh; [|lra].
      replace ((1 - size (concat pre) / size l) * size l) with (size g + size (concat post)) in Hhigh by (rewrite El; field; lra).
      replace (rho * (1 - (size (concat pre) + size g) / size l) * size l) with (rho * size (concat post)) in Hhigh by (rewrite El; field; lra). lra.
    Qed.
    Lemma seg_high pre seg post : gs = pre ++ seg ++ post -> (length seg <= 2)%nat ->
      size (concat seg) + size (concat post) <= rho * rho * size (concat post) + rho + 1.
    Proof.
      intros E Hs. pose proof (pos_INR (length (concat post))) as Hp.
      assert (size (concat post) <= rho * size (concat post)) as H1 by nra.
      destruct seg as [|g [|d [|? ?]]]; [| | |cbn in Hs; lia].
      - cbn [concat length INR]. nra.
      - cbn [concat]. rewrite app_nil_r. pose proof (group_high pre g post E). nra.
      - cbn [concat]. rewrite app_nil_r, size_app. pose proof (group_high pre g (d :: post) E) as H2.
        pose proof (group_high (pre ++ [g]) d post) as H3. rewrite <- app_assoc in H3. specialize (H3 E).
        cbn [concat] in H2. rewrite size_app in H2. nra.
    Qed.
    Lemma near_high v e : near v gs 0 e ->
      size l - e <= rho * rho * (size l - below v l) + rho + 1 /\ size l - upto v l <= rho * rho * (size l - e) + rho + 1.
    Proof.
      intros H. rewrite <- (below_perm v HP), <- (upto_perm v HP).
      pose proof (below_le v (concat gs)) as Hbl. pose proof (upto_le v (concat gs)) as Hul. pose proof (below_upto v (concat gs)).
      rewrite (Permutation_length HP) in Hbl, Hul.
      assert (1 <= rho * rho) as Hrr by nra.
      destruct H as [H|(pre & seg & post & E & Hs & He & Hu & Hb & _)]; [nra|].
      pose proof (seg_high _ _ _ E Hs). pose proof (pos_INR (length (concat post))).
      pose proof (rest_size _ _ E) as El. rewrite concat_app, size_app in El. split.
      - assert (rho * rho * size (concat post) <= rho * rho * (size l - below v (concat gs))) by (apply Rmult_le_compat_l; lra). lra.
      - assert (rho * rho * size (concat post) <= rho * rho * (size l - e)) by (apply Rmult_le_compat_l; lra). lra.
    Qed.
  End High.
End Steps.

(** ** the shipped scale functions *)
Lemma sin_step a d : 0 <= d -> sin (a + d) - sin a <= d.
Proof.
  intros [Hd|<-]; [|rewrite Rplus_0_r; lra].
  destruct (MVT_cor2 sin cos a (a + d)) as (c & E & _); [lra|intros x _; apply derivable_pt_lim_sin|].
  rewrite E. pose proof (COS_bound c). nra.
Qed.
Lemma logit_step q q' : 0 < q -> q < q' -> q' < 1 -> 4 / ln 10 * (q' - q) <= logit q' - logit q.
Proof.
  intros H0 H1 H2. pose proof ln10_pos as H10.
  set (f := (ln + (- (comp ln (fct_cte 1 - id))%F))%F). set (f' := fun x => / x + / (1 - x)).
  destruct (MVT_cor2 f f' q q') as (c & E & Hc); [exact H1| |].
  - intros x Hx. unfold f, f'. replace (/ x + / (1 - x)) with (/ x + - (/ (1 - x) * (0 - 1))) by lra.
    apply derivable_pt_lim_plus; [apply derivable_pt_lim_ln; lra|]. apply derivable_pt_lim_opp.
    apply derivable_pt_lim_comp; [apply derivable_pt_lim_minus; [apply derivable_pt_lim_const|apply derivable_pt_lim_id]|].
    apply derivable_pt_lim_ln. unfold minus_fct, fct_cte, id. lra.
  - assert (forall x, 0 < x < 1 -> logit x = f x / ln 10) as Ef.
    { intros x Hx. unfold logit, log10, f, plus_fct, opp_fct, comp, minus_fct, fct_cte, id. unfold Rdiv at 2. rewrite ln_mult, ln_Rinv by (try apply Rinv_0_lt_compat; lra). unfold Rminus. reflexivity. }
    rewrite !Ef by lra. unfold f' in E.
    assert (4 <= / c + / (1 - c)) as H4.
    { replace (/ c + / (1 - c)) with (/ (c * (1 - c))) by (field; lra).
      assert (0 < c * (1 - c)) by (apply Rmult_lt_0_compat; lra). assert (c * (1 - c) <= / 4) by (pose proof (Rle_0_sqr (c - / 2)) as Hs; unfold Rsqr in Hs; lra). replace 4 with (/ (/ 4)) by lra. apply Rinv_le_contravar; lra. }
    replace (f q' / ln 10 - f q / ln 10) with ((f q' - f q) / ln 10) by (field; lra). rewrite E.
    replace (4 / ln 10 * (q' - q)) with (4 * (q' - q) / ln 10) by (field; lra).
    apply Rmult_le_compat_r; [apply Rlt_le, Rinv_0_lt_compat; exact H10|]. apply Rmult_le_compat_r; lra.
Qed.
Lemma ln_step a b : 0 < a -> a < b -> (b - a) / b <= ln b - ln a.
Proof.
  intros Ha Hb. pose proof (exp_ineq1_le (ln a - ln b)) as H. unfold Rminus in H at 2. rewrite exp_plus, exp_Ropp, !exp_ln in H by lra.
  replace ((b - a) / b) with (1 - a * / b) by (field; lra). lra.
Qed.
Lemma trilog_step q q' : 0 < q -> q < q' -> q' < 1 -> 2 / ln 10 * (q' - q) <= trilog q' - trilog q.
Proof.
  intros H0 H1 H2. pose proof ln10_pos as H10.
  assert (2 * (q' - q) <= ln 10 * (trilog q' - trilog q)) as H.
  { assert (forall a, 0 < a -> a <= 1 -> 1 - a <= - ln a) as Ha.
    { intros a A0 [A1|A1]; [|rewrite A1, ln_1; lra]. pose proof (ln_step A0 A1) as H. rewrite ln_1 in H. unfold Rdiv in H. rewrite Rinv_1 in H. lra. }
    assert (forall x, ln 10 * log10 x = ln x) as Hl by (intros x; unfold log10; field; lra).
    unfold trilog. destruct (Rle_dec q (1 / 2)); destruct (Rle_dec q' (1 / 2)); try lra; rewrite (Rmult_minus_distr_l (ln 10)).
    - rewrite !Hl. assert (2 * q < 2 * q') as Hlt by lra. assert (0 < 2 * q) as Hp by lra. pose proof (ln_step Hp Hlt) as H.
      assert (2 * (q' - q) <= (2 * q' - 2 * q) / (2 * q')); [|lra].
      apply Rmult_le_reg_r with (2 * q'); [lra|]. replace ((2 * q' - 2 * q) / (2 * q') * (2 * q')) with (2 * q' - 2 * q) by (field; lra). nra.
    - rewrite <- Ropp_mult_distr_r, !Hl. pose proof (Ha (2 * (1 - q')) ltac:(lra) ltac:(lra)). pose proof (Ha (2 * q) ltac:(lra) ltac:(lra)). lra.
    - rewrite <- !Ropp_mult_distr_r, !Hl. assert (2 * (1 - q') < 2 * (1 - q)) as Hlt by lra. assert (0 < 2 * (1 - q')) as Hp by lra.
      pose proof (ln_step Hp Hlt) as H.
      assert (2 * (q' - q) <= (2 * (1 - q) - 2 * (1 - q')) / (2 * (1 - q))); [|lra].
      apply Rmult_le_reg_r with (2 * (1 - q)); [lra|].
      replace ((2 * (1 - q) - 2 * (1 - q')) / (2 * (1 - q)) * (2 * (1 - q))) with (2 * (1 - q) - 2 * (1 - q')) by (field; lra). nra. }
  replace (2 / ln 10 * (q' - q)) with (2 * (q' - q) / ln 10) by (field; lra).
  apply Rmult_le_reg_r with (ln 10); [lra|]. replace (2 * (q' - q) / ln 10 * ln 10) with (2 * (q' - q)) by (field; lra). lra.
Qed.

(** one step of a logarithmic scale: [y' <= y + d] *)
Lemma logit_ratio q q' d : 0 < q -> q < q' -> q' < 1 -> logit q' <= logit q + d -> q' <= pow10 d * q /\ 1 - q <= pow10 d * (1 - q').
Proof.
  intros H0 H1 H2 H. apply pow10_le in H. unfold logit in H. unfold pow10 in H. rewrite Rpower_plus in H. fold (pow10 d) in H.
  change (Rpower 10 (log10 (q' / (1 - q')))) with (pow10 (log10 (q' / (1 - q')))) in H.
  change (Rpower 10 (log10 (q / (1 - q)))) with (pow10 (log10 (q / (1 - q)))) in H.
  rewrite !pow10_log10 in H by (apply Rdiv_lt_0_compat; lra). pose proof (pow10_pos d) as Hp.
  assert (q' * (1 - q) <= pow10 d * (q * (1 - q'))) as Hc.
  { apply (Rmult_le_compat_r ((1 - q') * (1 - q))) in H; [|nra].
    replace (q' / (1 - q') * ((1 - q') * (1 - q))) with (q' * (1 - q)) in H by (field; lra).
    replace (q / (1 - q) * pow10 d * ((1 - q') * (1 - q))) with (pow10 d * (q * (1 - q'))) in H by (field; lra). exact H. }
  split.
  - apply Rmult_le_reg_r with (1 - q); [lra|]. assert (pow10 d * (q * (1 - q')) <= pow10 d * (q * (1 - q))) by (apply Rmult_le_compat_l; nra). lra.
  - apply Rmult_le_reg_r with q'; [lra|]. assert (pow10 d * (q * (1 - q')) <= pow10 d * (q' * (1 - q'))) by (apply Rmult_le_compat_l; nra). lra.
Qed.
Lemma trilog_ratio q q' d : 0 < q -> q < q' -> q' < 1 -> trilog q' <= trilog q + d -> q' <= pow10 d * q /\ 1 - q <= pow10 d * (1 - q').
Proof.
  intros H0 H1 H2 H. unfold trilog in H. pose proof (pow10_pos d) as Hp.
  assert (forall a b, 0 < a -> 0 < b -> log10 b <= log10 a + d -> b <= pow10 d * a) as Hs.
  { intros a b A B C. apply pow10_le in C. unfold pow10 in C. rewrite Rpower_plus in C. fold (pow10 d) (pow10 (log10 b)) (pow10 (log10 a)) in C.
    rewrite !pow10_log10 in C by assumption. lra. }
  destruct (Rle_dec q (1 / 2)); destruct (Rle_dec q' (1 / 2)); try lra.
  - apply Hs in H; [|lra|lra]. split; nra.
  - assert (log10 (/ (2 * (1 - q'))) <= log10 (2 * q) + d) as H' by (rewrite log10_inv; lra).
    apply Hs in H'; [|lra|apply Rinv_0_lt_compat; lra].
    assert (1 <= pow10 d * (4 * (q * (1 - q')))) as Hc.
    { apply (Rmult_le_compat_r (2 * (1 - q'))) in H'; [|lra]. rewrite Rinv_l in H' by lra. lra. }
    split.
    + apply Rmult_le_reg_r with (4 * (1 - q')); [lra|]. assert (4 * (q' * (1 - q')) <= 1) by nra. lra.
    + apply Rmult_le_reg_r with (4 * q); [lra|]. assert (4 * (q * (1 - q)) <= 1) by nra. lra.
  - assert (log10 (2 * (1 - q)) <= log10 (2 * (1 - q')) + d) as H' by lra. apply Hs in H'; [|lra|lra]. split; nra.
Qed.

Lemma expit_above q d q' : 0 < q < 1 -> 0 < q' -> fle (XFin q') (XFin (expit (logit q + d))) = true -> q' < 1 /\ logit q' <= logit q + d.
Proof.
  intros Hq Hq' H. apply xle_b in H. pose proof (expit_range (logit q + d)). split; [lra|].
  apply Rnot_lt_le. intros C. apply expit_lt in C. rewrite expit_logit in C by lra. lra.
Qed.
Lemma triexp_above q d q' : 0 < q < 1 -> 0 < q' -> fle (XFin q') (XFin (triexp (trilog q + d))) = true -> q' < 1 /\ trilog q' <= trilog q + d.
Proof.
  intros Hq Hq' H. apply xle_b in H. pose proof (triexp_range (trilog q + d)). split; [lra|].
  apply Rnot_lt_le. intros C. apply triexp_lt in C. rewrite triexp_trilog in C by lra. lra.
Qed.

(** width and ratio of one step *)
Definition step_width (k inv : xr -> xr -> xr -> xr) (cf n lam : R) : Prop :=
  forall q q', 0 <= q -> q < q' -> q' <= 1 -> fle (XFin q') (stepped k inv cf n q) = true -> q' - q <= lam.
Definition step_low (k inv : xr -> xr -> xr -> xr) (cf n rho : R) : Prop :=
  forall q q', 0 <= q -> q < q' -> q' <= 1 -> fle (XFin q') (stepped k inv cf n q) = true -> q' <= rho * q.
Definition step_high (k inv : xr -> xr -> xr -> xr) (cf n rho : R) : Prop :=
  forall q q', 0 <= q -> q < q' -> q' <= 1 -> fle (XFin q') (stepped k inv cf n q) = true -> 1 - q <= rho * (1 - q').

Lemma k0_width cf n : 0 < cf -> step_width k0 inv_k0 cf n (2 / cf).
Proof. intros Hc q q' _ _ _ H. rewrite k0_stepped in H by lra. apply xle_b in H. lra. Qed.
Lemma k1_width cf n : 0 < cf -> step_width k1 inv_k1 cf n (PI / cf).
Proof.
  intros Hc q q' H0 H1 H2 H. rewrite k1_stepped in H by lra. apply xle_b in H.
  pose proof PI_RGT_0 as Hpi. assert (0 <= 2 * PI / cf) as Hd by (apply Rlt_le, Rdiv_lt_0_compat; lra).
  pose proof (sin_step (asin (2 * q - 1)) Hd) as Hs. rewrite sin_asin in Hs by lra.
  replace (PI / cf) with (2 * PI / cf / 2) by (field; lra). lra.
Qed.
Section Logs.
  Variables cf n : R.
  Hypothesis Hc : 0 < cf.
  Hypothesis Hn : 0 < n.
  Lemma k2_step_at q q' : 0 < den 24 cf n -> 0 <= q -> q < q' -> q' <= 1 -> fle (XFin q') (stepped k2 inv_k2 cf n q) = true ->
    0 < q /\ q' < 1 /\ logit q' <= logit q + den 24 cf n / cf.
  Proof.
    intros Hd [H0|<-] H1 H2 H.
    - rewrite k2_stepped in H by (auto; lra). apply expit_above in H; [|lra|lra]. lra.
    - rewrite k2_stepped_0 in H by assumption. apply xle_b in H. lra.
  Qed.
  Lemma k3_step_at q q' : 0 < den 21 cf n -> 0 <= q -> q < q' -> q' <= 1 -> fle (XFin q') (stepped k3 inv_k3 cf n q) = true ->
    0 < q /\ q' < 1 /\ trilog q' <= trilog q + den 21 cf n / cf.
  Proof.
    intros Hd [H0|<-] H1 H2 H.
    - rewrite k3_stepped in H by (auto; lra). apply triexp_above in H; [|lra|lra]. lra.
    - rewrite k3_stepped_0 in H by assumption. apply xle_b in H. lra.
  Qed.
  Lemma slope a d x : 0 < a -> a / ln 10 * x <= d -> x <= ln 10 / a * d.
  Proof.
    intros Ha H. pose proof ln10_pos. apply (Rmult_le_compat_l (ln 10 / a)) in H; [|apply Rlt_le, Rdiv_lt_0_compat; lra].
    replace (ln 10 / a * (a / ln 10 * x)) with x in H by (field; lra). exact H.
  Qed.
  Lemma k2_width : 0 < den 24 cf n -> step_width k2 inv_k2 cf n (ln 10 / 4 * (den 24 cf n / cf)).
  Proof.
    intros Hd q q' H0 H1 H2 H. destruct (k2_step_at Hd H0 H1 H2 H) as (A & B & C). pose proof (logit_step A H1 B).
    apply slope; lra.
  Qed.
  Lemma k3_width : 0 < den 21 cf n -> step_width k3 inv_k3 cf n (ln 10 / 2 * (den 21 cf n / cf)).
  Proof.
    intros Hd q q' H0 H1 H2 H. destruct (k3_step_at Hd H0 H1 H2 H) as (A & B & C). pose proof (trilog_step A H1 B).
    apply slope; lra.
  Qed.
  Lemma k2_ratio : 0 < den 24 cf n -> step_low k2 inv_k2 cf n (pow10 (den 24 cf n / cf)) /\ step_high k2 inv_k2 cf n (pow10 (den 24 cf n / cf)).
  Proof.
    intros Hd. split; intros q q' H0 H1 H2 H; destruct (k2_step_at Hd H0 H1 H2 H) as (A & B & C); now destruct (logit_ratio A H1 B C).
  Qed.
  Lemma k3_ratio : 0 < den 21 cf n -> step_low k3 inv_k3 cf n (pow10 (den 21 cf n / cf)) /\ step_high k3 inv_k3 cf n (pow10 (den 21 cf n / cf)).
  Proof.
    intros Hd. split; intros q q' H0 H1 H2 H; destruct (k3_step_at Hd H0 H1 H2 H) as (A & B & C); now destruct (trilog_ratio A H1 B C).
  Qed.
End Logs.
Section Derived.
  Variables cf n : R.
  Hypothesis Hn : 0 < n.
  Lemma k2n_stepped q : stepped k2n inv_k2n cf n q = stepped k2 inv_k2 (cfn cf n) n q.
  Proof. unfold stepped. rewrite k2n_as_k2 by exact Hn. apply inv_k2n_as_k2. exact Hn. Qed.
  Lemma k2n_width : 0 < cfn cf n -> 0 < den 24 (cfn cf n) n -> step_width k2n inv_k2n cf n (ln 10 / 4 * (den 24 (cfn cf n) n / cfn cf n)).
  Proof. intros Hc Hd q q' H0 H1 H2 H. rewrite k2n_stepped in H. exact (k2_width Hc Hn Hd H0 H1 H2 H). Qed.
  Lemma k2n_ratio : 0 < cfn cf n -> 0 < den 24 (cfn cf n) n ->
    step_low k2n inv_k2n cf n (pow10 (den 24 (cfn cf n) n / cfn cf n)) /\ step_high k2n inv_k2n cf n (pow10 (den 24 (cfn cf n) n / cfn cf n)).
  Proof.
    intros Hc Hd. destruct (k2_ratio Hc Hn Hd) as [A B].
    split; intros q q' H0 H1 H2 H; rewrite k2n_stepped in H; [exact (A _ _ H0 H1 H2 H)|exact (B _ _ H0 H1 H2 H)].
  Qed.
  Lemma k2_asym_step q q' : 0 < cf -> 0 < den 24 (cf * 2) n -> 0 <= q -> q < q' -> q' <= 1 -> fle (XFin q') (stepped k2_asym inv_k2_asym cf n q) = true ->
    fle (XFin (q' / 2)) (stepped k2 inv_k2 (cf * 2) n (q / 2)) = true.
  Proof.
    intros Hc Hd H0 H1 H2. unfold stepped. rewrite k2_asym_as_k2, inv_k2_asym_as_k2.
    replace (q * (1 / 2)) with (q / 2) by field.
    change (inv_k2 (fadd (k2 (XFin (q / 2)) (XFin (cf * 2)) (XFin n)) f1) (XFin (cf * 2)) (XFin n)) with (stepped k2 inv_k2 (cf * 2) n (q / 2)).
    destruct H0 as [H0|<-].
    - rewrite k2_stepped by (try lra; auto). rewrite xmul_fin, !xle_b. lra.
    - replace (0 / 2) with 0 by field. rewrite k2_stepped_0 by (try lra; auto). rewrite xmul_fin, !xle_b. lra.
  Qed.
  Lemma k2_asym_width : 0 < cf -> 0 < den 24 (cf * 2) n -> step_width k2_asym inv_k2_asym cf n (ln 10 / 4 * (den 24 (cf * 2) n / cf)).
  Proof.
    intros Hc Hd q q' H0 H1 H2 H. apply (k2_asym_step Hc Hd H0 H1 H2) in H.
    assert (0 < cf * 2) as Hc2 by lra. pose proof (@k2_width (cf * 2) n Hc2 Hn Hd (q / 2) (q' / 2) ltac:(lra) ltac:(lra) ltac:(lra) H) as W.
    replace (den 24 (cf * 2) n / (cf * 2)) with (den 24 (cf * 2) n / cf / 2) in W by (field; lra). lra.
  Qed.
  Lemma k2_asym_low : 0 < cf -> 0 < den 24 (cf * 2) n -> step_low k2_asym inv_k2_asym cf n (pow10 (den 24 (cf * 2) n / (cf * 2))).
  Proof.
    intros Hc Hd q q' H0 H1 H2 H. apply (k2_asym_step Hc Hd H0 H1 H2) in H.
    assert (0 < cf * 2) as Hc2 by lra. destruct (@k2_ratio (cf * 2) n Hc2 Hn Hd) as [A _].
    pose proof (A (q / 2) (q' / 2) ltac:(lra) ltac:(lra) ltac:(lra) H). lra.
  Qed.
End Derived.

(** ** the answers of a digest *)
Definition within (l : list R) (W t x : R) : Prop := below x l - W <= t <= upto x l + W.
Definition low_ratio (l : list R) (rho t x : R) : Prop := t <= rho * rho * upto x l + rho + 1 /\ below x l <= rho * rho * t + rho + 1.
Definition high_ratio (l : list R) (rho t x : R) : Prop :=
  size l - t <= rho * rho * (size l - below x l) + rho + 1 /\ size l - upto x l <= rho * rho * (size l - t) + rho + 1.
(** the quantile queries of [s], built from [l], relate rank [t] (n times the answer) and value [x] by [P] *)
Definition q_answers (s : tdigest xr) (l : list R) (P : R -> R -> Prop) : Prop :=
  forall v, exists a, td_est_q s (XFin v) = Ret (XFin a) /\ P (size l * a) v.
(** the same for the value queries, except in the branch of the last centroid *)
Definition v_answers (s : tdigest xr) (l : list R) (P : R -> R -> Prop) : Prop :=
  forall cs last q, listed s cs -> last_error cs = Some last -> (Z.of_nat (length l) < 2 ^ 64)%Z -> 0 <= q <= 1 -> clear_last l last q ->
     exists x, td_est_v s (XFin q) = Ret (XFin x) /\ P (size l * q) x.
Definition answers (s : tdigest xr) (l : list R) (P : R -> R -> Prop) : Prop := q_answers s l P /\ v_answers s l P.

Lemma listed_fun s cs cs' : listed s cs -> listed s cs' -> cs = cs'.
Proof.
  unfold listed. intros -> H. revert cs' H. induction cs as [|[a b] cs IH]; intros [|[a' b'] cs'] H; try discriminate; [reflexivity|].
  cbn [map fst snd] in H. injection H as E1 E2 E3. f_equal; [congruence|auto].
Qed.
Lemma Wt_gcen gs : Wt (map gcen gs) = size (concat gs).
Proof. induction gs as [|g gs IH]; [reflexivity|]. cbn [map concat]. rewrite size_app, <- IH. reflexivity. Qed.

Section Top.
  Variables (cfg : tcfg xr) (k inv : xr -> xr -> xr -> xr) (cf : R).
  Hypothesis Hw : with_scale cfg k inv cf.
  Theorem answers_near l : l <> [] -> exists s gs, td_add_buffer cfg td_new (map XFin l) = Ret s /\
    Permutation (concat gs) l /\ grouped gs /\ listed s (map gcen gs) /\
    greedy (stepped k inv cf (size l)) (size l) 0 (map (map ucen) gs) /\
    forall P : R -> R -> Prop, (forall t x, near x gs 0 t -> P t x) -> answers s l P.
  Proof.
    destruct Hw as (Hlib & Ek & Ei & Hcf).
    intros Hl. destruct (@fresh_accuracy cfg cf Hcf Hlib l Hl) as (s & gs & A1 & A2 & A3 & A4 & A5 & A6 & A7). exists s, gs.
    rewrite Ek, Ei in A5. do 5 (split; [assumption|]). intros P HP. split.
    - intros v. destruct (A6 v) as (e & Ee & He). exists (e / size l). split; [exact Ee|]. apply HP.
      replace (size l * (e / size l)) with e; [exact He|]. field. pose proof (size_pos Hl). lra.
    - intros cs last q Hcs Hla Hn Hq Hc. rewrite (listed_fun Hcs A4) in *.
      destruct (A7 q Hq) as (x & Ex & Hx); [rewrite INR_IZR_INZ; now apply IZR_lt| |exists x; auto].
      assert (last = lastc (map gcen gs)) as ->.
      { assert (map gcen gs <> []) as Hne by (intros E; rewrite E in Hla; discriminate). pose proof (cs_last Hne) as H. pose proof (eq_trans (eq_sym H) Hla) as E. now injection E. }
      unfold clear_of_last. unfold clear_last in Hc. replace (Wt (map gcen gs)) with (size l); [exact Hc|].
      rewrite Wt_gcen. now rewrite (Permutation_length A2).
  Qed.

  (** the four kinds of bound *)
  Theorem batch_accuracy l : l <> [] -> exists s cs, td_add_buffer cfg td_new (map XFin l) = Ret s /\ listed s cs /\
    (forall W, (forall c, In c cs -> snd c <= W) -> answers s l (within l (3 / 2 * W))) /\
    (forall lam, step_width k inv cf (size l) lam ->
       (forall c, In c cs -> snd c <= Rmax 1 (lam * size l)) /\ answers s l (within l (3 / 2 * Rmax 1 (lam * size l)))) /\
    (forall rho, 1 <= rho -> step_low k inv cf (size l) rho -> answers s l (low_ratio l rho)) /\
    (forall rho, 1 <= rho -> step_high k inv cf (size l) rho -> answers s l (high_ratio l rho)).
  Proof.
    intros Hl. destruct (answers_near Hl) as (s & gs & A1 & A2 & A3 & A4 & A5 & A6). exists s, (map gcen gs).
    assert (forall W, (forall c, In c (map gcen gs) -> snd c <= W) -> answers s l (within l (3 / 2 * W))) as HW.
    { intros W HW. apply A6. intros t x Hx. unfold within. rewrite <- (below_perm x A2), <- (upto_perm x A2).
      assert (forall g, In g gs -> size g <= W) as Hg by (intros g Hg; exact (HW _ (in_map gcen _ _ Hg))).
      apply (near_uniform Hx Hg). destruct gs as [|g gs']; [cbn in A2; apply Permutation_nil in A2; contradiction|].
      specialize (Hg g (or_introl eq_refl)). pose proof (pos_INR (length g)). lra. }
    split; [exact A1|]. split; [exact A4|]. split; [exact HW|]. split; [|split].
    - intros lam Hlam. assert (forall c, In c (map gcen gs) -> snd c <= Rmax 1 (lam * size l)) as Hc.
      { intros c Hc. apply in_map_iff in Hc as (g & <- & Hg). cbn [gcen snd]. exact (@weights_abs _ l gs A2 A3 A5 lam Hlam g Hg). }
      split; [exact Hc|exact (HW _ Hc)].
    - intros rho Hr Hs. apply A6. intros t x Hx. exact (@near_low _ l gs A2 A3 A5 rho Hr Hs x t Hx).
    - intros rho Hr Hs. apply A6. intros t x Hx. exact (@near_high _ l gs A2 A3 A5 rho Hr Hs x t Hx).
  Qed.

  (** explicit forms *)
  Definition built (l : list R) (P : tdigest xr -> list (R * R) -> Prop) : Prop :=
    exists s cs, td_add_buffer cfg td_new (map XFin l) = Ret s /\ listed s cs /\ P s cs.
  Lemma built_width l lam : l <> [] -> step_width k inv cf (size l) lam ->
    built l (fun s cs => (forall c, In c cs -> snd c <= Rmax 1 (lam * size l)) /\ answers s l (within l (3 / 2 * Rmax 1 (lam * size l)))).
  Proof. intros Hl H. destruct (batch_accuracy Hl) as (s & cs & A & B & _ & C & _). exists s, cs. auto. Qed.
  Lemma built_low l rho : l <> [] -> 1 <= rho -> step_low k inv cf (size l) rho -> built l (fun s _ => answers s l (low_ratio l rho)).
  Proof. intros Hl H1 H. destruct (batch_accuracy Hl) as (s & cs & A & B & _ & _ & C & _). exists s, cs. auto. Qed.
  Lemma built_both l rho : l <> [] -> 1 <= rho -> step_low k inv cf (size l) rho /\ step_high k inv cf (size l) rho ->
    built l (fun s _ => answers s l (low_ratio l rho) /\ answers s l (high_ratio l rho)).
  Proof. intros Hl H1 [H2 H3]. destruct (batch_accuracy Hl) as (s & cs & A & B & _ & _ & C & D). exists s, cs. auto. Qed.
End Top.

Section PerScale.
  Variables (cfg : tcfg xr) (cf : R) (l : list R).
  Hypothesis Hc : 0 < cf.
  Hypothesis Hl : l <> [].
  Let n := size l.
  Let Hn : 0 < n.
  Proof. pose proof (size_pos Hl). unfold n. lra. Qed.
  Definition light lam (cs : list (R * R)) : Prop := forall c, In c cs -> snd c <= Rmax 1 (lam * n).
  Definition bounded lam s cs := light lam cs /\ answers s l (within l (3 / 2 * Rmax 1 (lam * n))).
  Lemma pow10_ge1 x : 0 <= x -> 1 <= pow10 x.
  Proof. intros H. rewrite <- pow10_0. now apply pow10_le. Qed.
  Lemma acc_k0 : with_scale cfg k0 inv_k0 cf -> built cfg l (bounded (2 / cf)).
  Proof. intros H. exact (built_width H Hl (k0_width _ Hc)). Qed.
  Lemma acc_k1 : with_scale cfg k1 inv_k1 cf -> built cfg l (bounded (PI / cf)).
  Proof. intros H. exact (built_width H Hl (k1_width _ Hc)). Qed.
  Lemma acc_k2 : with_scale cfg k2 inv_k2 cf -> 0 < den 24 cf n -> built cfg l (bounded (ln 10 / 4 * (den 24 cf n / cf))).
  Proof. intros H Hd. exact (built_width H Hl (k2_width Hc Hn Hd)). Qed.
  Lemma acc_k3 : with_scale cfg k3 inv_k3 cf -> 0 < den 21 cf n -> built cfg l (bounded (ln 10 / 2 * (den 21 cf n / cf))).
  Proof. intros H Hd. exact (built_width H Hl (k3_width Hc Hn Hd)). Qed.
  Lemma acc_k2n : with_scale cfg k2n inv_k2n cf -> 0 < cfn cf n -> 0 < den 24 (cfn cf n) n ->
    built cfg l (bounded (ln 10 / 4 * (den 24 (cfn cf n) n / cfn cf n))).
  Proof. intros H Hp Hd. exact (built_width H Hl (k2n_width Hn Hp Hd)). Qed.
  Lemma acc_k2_asym : with_scale cfg k2_asym inv_k2_asym cf -> 0 < den 24 (cf * 2) n ->
    built cfg l (bounded (ln 10 / 4 * (den 24 (cf * 2) n / cf))).
  Proof. intros H Hd. exact (built_width H Hl (k2_asym_width Hn Hc Hd)). Qed.
  Lemma rel_k2 : with_scale cfg k2 inv_k2 cf -> 0 < den 24 cf n ->
    built cfg l (fun s _ => answers s l (low_ratio l (pow10 (den 24 cf n / cf))) /\ answers s l (high_ratio l (pow10 (den 24 cf n / cf)))).
  Proof. intros H Hd. refine (built_both H Hl _ (k2_ratio Hc Hn Hd)). apply pow10_ge1, Rlt_le, Rdiv_lt_0_compat; lra. Qed.
  Lemma rel_k3 : with_scale cfg k3 inv_k3 cf -> 0 < den 21 cf n ->
    built cfg l (fun s _ => answers s l (low_ratio l (pow10 (den 21 cf n / cf))) /\ answers s l (high_ratio l (pow10 (den 21 cf n / cf)))).
  Proof. intros H Hd. refine (built_both H Hl _ (k3_ratio Hc Hn Hd)). apply pow10_ge1, Rlt_le, Rdiv_lt_0_compat; lra. Qed.
  Lemma rel_k2n : with_scale cfg k2n inv_k2n cf -> 0 < cfn cf n -> 0 < den 24 (cfn cf n) n ->
    built cfg l (fun s _ => answers s l (low_ratio l (pow10 (den 24 (cfn cf n) n / cfn cf n))) /\ answers s l (high_ratio l (pow10 (den 24 (cfn cf n) n / cfn cf n)))).
  Proof. intros H Hp Hd. refine (built_both H Hl _ (k2n_ratio Hn Hp Hd)). apply pow10_ge1, Rlt_le, Rdiv_lt_0_compat; lra. Qed.
  Lemma rel_k2_asym : with_scale cfg k2_asym inv_k2_asym cf -> 0 < den 24 (cf * 2) n ->
    built cfg l (fun s _ => answers s l (low_ratio l (pow10 (den 24 (cf * 2) n / (cf * 2))))).
  Proof. intros H Hd. refine (built_low H Hl _ (k2_asym_low Hn Hc Hd)). apply pow10_ge1, Rlt_le, Rdiv_lt_0_compat; lra. Qed.
End PerScale.

Section Parts.
  Variables (cfg : tcfg xr) (l : list R).
  Lemma abs_q lam : built cfg l (bounded l lam) -> built cfg l (fun s cs => light l lam cs /\ q_answers s l (within l (3 / 2 * Rmax 1 (lam * size l)))).
  Proof. intros (s & cs & A & B & C & D & _). exists s, cs. auto. Qed.
  Lemma abs_v lam : built cfg l (bounded l lam) -> built cfg l (fun s cs => light l lam cs /\ v_answers s l (within l (3 / 2 * Rmax 1 (lam * size l)))).
  Proof. intros (s & cs & A & B & C & _ & D). exists s, cs. auto. Qed.
  Lemma rel_q rho : built cfg l (fun s _ => answers s l (low_ratio l rho) /\ answers s l (high_ratio l rho)) ->
    built cfg l (fun s _ => q_answers s l (low_ratio l rho) /\ q_answers s l (high_ratio l rho)).
  Proof. intros (s & cs & A & B & [C _] & [D _]). exists s, cs. auto. Qed.
  Lemma rel_v rho : built cfg l (fun s _ => answers s l (low_ratio l rho) /\ answers s l (high_ratio l rho)) ->
    built cfg l (fun s _ => v_answers s l (low_ratio l rho) /\ v_answers s l (high_ratio l rho)).
  Proof. intros (s & cs & A & B & [_ C] & [_ D]). exists s, cs. auto. Qed.
  Lemma low_q rho : built cfg l (fun s _ => answers s l (low_ratio l rho)) -> built cfg l (fun s _ => q_answers s l (low_ratio l rho)).
  Proof. intros (s & cs & A & B & C & _). exists s, cs. auto. Qed.
  Lemma low_v rho : built cfg l (fun s _ => answers s l (low_ratio l rho)) -> built cfg l (fun s _ => v_answers s l (low_ratio l rho)).
  Proof. intros (s & cs & A & B & _ & C). exists s, cs. auto. Qed.
  Lemma any_q k inv cf : with_scale cfg k inv cf -> l <> [] ->
    built cfg l (fun s cs => forall W, (forall c, In c cs -> snd c <= W) -> q_answers s l (within l (3 / 2 * W))).
  Proof. intros H Hl. destruct (batch_accuracy H Hl) as (s & cs & A & B & C & _). exists s, cs. split; [exact A|]. split; [exact B|]. intros W HW. apply (C W HW). Qed.
  Lemma any_v k inv cf : with_scale cfg k inv cf -> l <> [] ->
    built cfg l (fun s cs => forall W, (forall c, In c cs -> snd c <= W) -> v_answers s l (within l (3 / 2 * W))).
  Proof. intros H Hl. destruct (batch_accuracy H Hl) as (s & cs & A & B & C & _). exists s, cs. split; [exact A|]. split; [exact B|]. intros W HW. apply (C W HW). Qed.
End Parts.
