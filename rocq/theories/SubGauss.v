(** Quantile estimates that concentrate exponentially: the RC sketches in exact arithmetic, and MultiDigests of such digests. *)
From Coq Require Import List Arith ZArith NArith Lia Bool Reals Lra.
From Verif Require Import Base Floats XReal Digest Spec FloatFacts History LinearProofs WrapProofs MultiSymProofs.
From Verif Require Import ParallelProofs TDigestExact TDigestHist TDigestAcc TDigestAcc2 TDigestDrift.
From Verif Require Import TDigest RCSketch RCProofs RCHist RCRank RCExpect RCTop RCQuery RCObs RCObs2 RCRel RCRelTop RCValue RC2 RC2Sections RC2Proofs RC2Hist RC2Rank RC2Top RC2Var RC2Value RCSym RCExp RCExpTop.
From Verif Require Import Accurate AccuratePar AccurateTop AccurateRC AccurateRC2 Average AverageRC.
Set Implicit Arguments.
Set Universe Polymorphism.
Unset Universe Minimization ToSet.
Local Open Scope R_scope.

(** the error of the quantile estimate of a value is sub-Gaussian over the coin flips, with variance proxy [a rs v] *)
Definition concentrated (D : digest xr) (s0 : dst D) (lim : Z) (a : list R -> R -> R) : Prop :=
  forall ops rs v l, fine ops -> items_of ops = map XFin rs -> rs <> [] -> (Z.of_nat (length rs) <= lim)%Z ->
    expect (fun r => exp (l * (last_answer r - upto v rs / size rs))) (exec D s0 (ops ++ [Quant (XFin v)])) <= exp (l ^ 2 / 2 * a rs v).

Lemma concentrated_tail (D : digest xr) s0 lim a b ops rs v t : unbiased D s0 lim b -> concentrated D s0 lim a -> fine ops -> items_of ops = map XFin rs -> rs <> [] ->
  (Z.of_nat (length rs) <= lim)%Z -> 0 < a rs v -> 0 < t ->
  prob (fun r => if Rle_dec t (Rabs (last_answer r - upto v rs / size rs)) then true else false) (exec D s0 (ops ++ [Quant (XFin v)]))
  <= 2 * exp (- (t ^ 2 / (2 * a rs v))).
Proof.
  intros U C Hf Hi Hne Hl Ha Ht. pose proof (ub_finite U v Hf Hi Hne Hl) as HT.
  apply (@chernoff _ (exec D s0 (ops ++ [Quant (XFin v)])) (fun r => last_answer r - upto v rs / size rs) (a rs v) t Ha Ht).
  - eapply always_mono; [exact HT|auto].
  - intros l. exact (C ops rs v l Hf Hi Hne Hl).
  - intros r. destruct (Rle_dec t (Rabs (last_answer r - upto v rs / size rs))); [auto|discriminate].
Qed.
Lemma concentrated_weaken (D : digest xr) s0 lim (a b : list R -> R -> R) : (forall rs v, a rs v <= b rs v) -> concentrated D s0 lim a -> concentrated D s0 lim b.
Proof.
  intros H C ops rs v l Hf Hi Hne Hl. eapply Rle_trans; [exact (C ops rs v l Hf Hi Hne Hl)|]. apply exp_mono, Rmult_le_compat_l; [pose proof (pow2_ge_0 l); lra|apply H].
Qed.

(* ------------------------------------------------------------------ *)
(** * MultiDigest *)

Section Multi.
  Notation MD := (multi_digest xr).
  Notation bx := (boxed xr).
  Variables (lim : Z) (ds : list bx) (es us : list (list R -> R -> R)).
  Hypothesis Hds : ds <> [].
  Hypothesis HU : Forall2 (fun b e => unbiased (bx_impl b) (bx_state b) lim e) ds us.
  Hypothesis HC : Forall2 (fun b e => concentrated (bx_impl b) (bx_state b) lim e) ds es.

  Theorem multi_concentrated : concentrated MD ds lim (fun rs v => sumR (map (fun e => e rs v) es) / INR (length ds) ^ 2).
  Proof using Hds HU HC.
    intros ops rs v l Hf Hi Hne Hl. set (mu := upto v rs / size rs).
    assert (0 < INR (length ds)) as Hm by (apply lt_0_INR; destruct ds; [congruence|cbn; lia]).
    rewrite (@mean_dev lim ds us Hds HU ops rs v Hf Hi Hne Hl (fun x => exp (l * (x - mu)))). fold mu.
    set (m := INR (length ds)) in *. set (p := banswer ops (XFin v)).
    assert (forall ds0 es0, Forall2 (fun b e => concentrated (bx_impl b) (bx_state b) lim e) ds0 es0 ->
              expect (fun xs => exp (l / m * sumR (map (dev mu) xs))) (mapM p ds0) <= exp ((l / m) ^ 2 / 2 * sumR (map (fun e => e rs v) es0))) as HP.
    { intros ds0 es0 H0. induction H0 as [|b e ds0 es0 Hb Hr IH].
      - cbn [mapM expect map]. change (sumR []) with 0. rewrite !Rmult_0_r. lra.
      - cbn [mapM map]. change (sumR (e rs v :: map (fun e => e rs v) es0)) with (e rs v + sumR (map (fun e => e rs v) es0)).
        rewrite expect_bind.
        apply Rle_trans with (expect (fun y => exp ((l / m) ^ 2 / 2 * sumR (map (fun e => e rs v) es0)) * exp (l / m * dev mu y)) (p b)).
        + assert (forall (q : M xr) (f g : xr -> R), (forall y, f y <= g y) -> expect f q <= expect g q) as HL.
          { intros q f g H. induction q as [y| | |k IHq]; cbn [expect]; [apply H|lra|lra|]. pose proof (IHq true). pose proof (IHq false). lra. }
          apply HL. intros y. rewrite expect_bind. cbn [expect map].
          apply Rle_trans with (exp (l / m * dev mu y) * expect (fun xs => exp (l / m * sumR (map (dev mu) xs))) (mapM p ds0)).
          * right. rewrite <- expect_scal. apply expect_ext. intros xs. change (sumR (dev mu y :: map (dev mu) xs)) with (dev mu y + sumR (map (dev mu) xs)).
            rewrite <- exp_plus. f_equal. ring.
          * rewrite Rmult_comm. apply Rmult_le_compat_r; [apply Rlt_le, exp_pos|exact IH].
        + rewrite expect_scal. pose proof (Hb ops rs v (l / m) Hf Hi Hne Hl) as E.
          rewrite <- (banswer_expect ops (XFin v) b (fun x => exp (l / m * (x - upto v rs / size rs)))) in E.
          eapply Rle_trans; [apply Rmult_le_compat_l; [apply Rlt_le, exp_pos|exact E]|]. right. rewrite <- exp_plus. f_equal. ring. }
    apply Rle_trans with (expect (fun xs => exp (l / m * sumR (map (dev mu) xs))) (mapM p ds)).
    - right. apply expect_ext. intros xs. f_equal. field. lra.
    - eapply Rle_trans; [exact (HP ds es HC)|]. right. f_equal. field. lra.
  Qed.
End Multi.

(** m equal members: the variance proxy is divided by m *)
Theorem concentrated_copies (D : digest xr) s0 lim a b m : (1 <= m)%nat -> unbiased D s0 lim b -> concentrated D s0 lim a ->
  concentrated (multi_digest xr) (repeat (@Box xr D s0) m) lim (fun rs v => a rs v / INR m).
Proof.
  intros Hm U C. assert (repeat (@Box xr D s0) m <> []) as Hne by (destruct m; [lia|discriminate]).
  assert (Forall2 (fun b e => unbiased (bx_impl b) (bx_state b) lim e) (repeat (@Box xr D s0) m) (repeat b m)) as HU.
  { clear Hm Hne. induction m as [|m IH]; cbn [repeat]; constructor; [exact U|exact IH]. }
  assert (Forall2 (fun b e => concentrated (bx_impl b) (bx_state b) lim e) (repeat (@Box xr D s0) m) (repeat a m)) as HC.
  { clear Hm Hne HU. induction m as [|m IH]; cbn [repeat]; constructor; [exact C|exact IH]. }
  refine (@concentrated_weaken _ _ _ _ _ _ (@multi_concentrated lim _ _ _ Hne HU HC)). intros rs v. rewrite repeat_length. right.
  assert (sumR (map (fun e => e rs v) (repeat a m)) = INR m * a rs v) as ->.
  { clear. induction m as [|m IH]; [cbn; lra|]. cbn [repeat map]. rewrite S_INR. change (sumR (a rs v :: map (fun e => e rs v) (repeat a m))) with (a rs v + sumR (map (fun e => e rs v) (repeat a m))). rewrite IH. ring. }
  field. apply not_0_INR. lia.
Qed.

(* ------------------------------------------------------------------ *)
(** * The RC sketches *)

Section RC.
  Variable B : Z.
  Hypothesis HB : (4096 <= B)%Z.
  Local Instance FLc : FloatLaws xr := xr_laws HB.
  Variables (lg : xr -> xr) (n k : nat).
  Hypothesis Hp : @rc_params xr _ FLc lg n k.
  Hypothesis Hu : (N.of_nat (n / k) <= u32_max)%N.
  Hypothesis He : Nat.even k = true.
  Hypothesis Hi : (Z.of_nat n <= B)%Z.
  Notation D := (@rc_digest xr _).

  Lemma rc_concentrated_by (a : list R -> R -> R) :
    (forall ops rs v l, fine ops -> items_of ops = map XFin rs -> rs <> [] -> (Z.of_nat (length rs) <= Z.of_nat n)%Z ->
       expect (fun z => exp (l * (IZR z - INR (n_le (ritems_of (rops ops)) (XFin v))))) (rank_after lg n k (rops ops) (XFin v)) <= exp (l ^ 2 / 2 * (a rs v * INR (length rs) ^ 2))) ->
    concentrated D (rc_fresh n k) (Z.of_nat n) a.
  Proof using Hp Hu He Hi.
    intros HM ops rs v l Hf Hits Hne Hl. assert (0 < INR (length rs)) as HN by (apply lt_0_INR; destruct rs; [congruence|cbn; lia]).
    rewrite (@rc_answer B HB lg n k Hp Hu He Hi ops rs v Hf Hits Hne Hl (fun x => exp (l * (x - upto v rs / size rs)))).
    pose proof (HM ops rs v (l / INR (length rs)) Hf Hits Hne Hl) as H.
    eapply Rle_trans; [|eapply Rle_trans; [exact H|]].
    - right. apply expect_ext. intros z. f_equal. rewrite rops_items, Hits, lin_upto. field. lra.
    - right. f_equal. field. lra.
  Qed.
  Theorem rc_concentrated : concentrated D (rc_fresh n k) (Z.of_nat n) (fun _ _ => 2 / (INR k * INR (spec_size n k))).
  Proof using Hp Hu He Hi.
    apply rc_concentrated_by. intros ops rs v l Hf Hits Hne Hl.
    pose proof (@rank_exp xr _ FLc lg n k (rops ops) (XFin v) (spec_size n k) l ltac:(eapply rops_proper; eauto) (rops_mode ops) ltac:(eapply rops_few; eauto) He (@calc_size xr _ FLc lg n k Hp)) as H.
    rewrite rops_items in *. replace (length (items_of ops)) with (length rs) in H by (rewrite Hits; symmetry; apply map_length).
    eapply Rle_trans; [exact H|]. right. f_equal. f_equal. unfold Rdiv. ring.
  Qed.
  Theorem rc_concentrated_rel h : (n * (k + 1) ^ S h <= spec_size n k / 2 * (2 * k) ^ S h)%nat ->
    concentrated D (rc_fresh n k) (Z.of_nat n) (fun rs v => 2 * (1 + / INR k) ^ (2 * h) / (INR k * INR (spec_size n k / 2)) * (upto v rs / INR (length rs)) ^ 2).
  Proof using Hp Hu He Hi.
    intros Hh. apply rc_concentrated_by. intros ops rs v l Hf Hits Hne Hl.
    assert (n_le (ritems_of (rops ops)) (XFin v) <= n)%nat as Hle.
    { rewrite rops_items, Hits. unfold n_le. eapply Nat.le_trans; [apply filter_length_le|]. rewrite map_length. lia. }
    assert (n_le (ritems_of (rops ops)) (XFin v) * (k + 1) ^ S h <= spec_size n k / 2 * (2 * k) ^ S h)%nat as Hh'.
    { eapply Nat.le_trans; [|exact Hh]. apply Nat.mul_le_mono_r, Hle. }
    pose proof (@rank_relative_exp2 xr _ FLc lg n k (rops ops) (XFin v) (spec_size n k) h l ltac:(eapply rops_proper; eauto) (rops_mode ops) ltac:(eapply rops_few; eauto) (@calc_size xr _ FLc lg n k Hp) Hh') as H.
    assert (INR (n_le (ritems_of (rops ops)) (XFin v)) = upto v rs) as EU by (rewrite rops_items, Hits; apply lin_upto).
    rewrite EU in *. assert (0 < INR (length rs)) as HN by (apply lt_0_INR; destruct rs; [congruence|cbn; lia]).
    eapply Rle_trans; [exact H|]. right. f_equal. f_equal. unfold Rdiv. rewrite Rpow_mult_distr, pow_inv. field. split; [lra|].
    destruct (@size_pos B HB lg n k Hp) as [_ HS]. split; intros E0; rewrite E0 in HS; lra.
  Qed.
End RC.

Section RC2.
  Variable B : Z.
  Hypothesis HB : (4096 <= B)%Z.
  Local Instance FLd : FloatLaws xr := xr_laws HB.
  Variables (extra : nat) (k : N) (n o h : nat).
  Hypothesis Hk : k_ok k.
  Hypothesis Hf : fewer k n.
  Hypothesis Hu : (N.of_nat n <= N.of_nat (min_sec k) * u32_max)%N.
  Hypothesis Ho1 : Nat.odd o = true.
  Hypothesis Ho2 : (o <= min_sec k + 1)%nat.
  Hypothesis Hh : ((o + 1) ^ h * n < 6 * N.to_nat k * (2 * o) ^ h)%nat.
  Hypothesis Hi : INR n + err2 k o h n <= IZR B.
  Notation D := (@rc2_digest xr _ extra).
  Theorem rc2_concentrated : concentrated D (rc2_new k) (Z.of_nat n) (fun rs _ => var2 k o h (length rs) / INR (length rs) ^ 2).
  Proof using HB Hk Hf Hu Ho1 Ho2 Hh Hi.
    intros ops rs v l Hfi Hits Hne Hl. assert (0 < INR (length rs)) as HN by (apply lt_0_INR; destruct rs; [congruence|cbn; lia]).
    rewrite (@rc2_answer B HB extra k n o h Hk Hf Hu Ho1 Ho2 Hh Hi ops rs v Hfi Hits Hne Hl (fun x => exp (l * (x - upto v rs / size rs)))).
    assert ((o + 1) ^ h * length (ritems_of (rops ops)) < 6 * N.to_nat k * (2 * o) ^ h)%nat as Hh'.
    { rewrite rops_items, Hits, map_length. eapply Nat.le_lt_trans; [|exact Hh]. apply Nat.mul_le_mono_l. clear -Hl. lia. }
    pose proof (@rank2_exp xr _ FLd extra k (rops ops) (XFin v) o h (l / INR (length rs)) (@rops_proper2 k n Hk Hu ops rs Hits Hl) (@rops_few2 k n o h Hk Hf Hu Ho2 Hh ops rs Hits Hl) (rops_mode ops) (@rops_nn ops rs Hits) Ho1 Ho2 Hh') as H.
    rewrite rops_items in H. rewrite Hits, map_length, lin_upto in H.
    eapply Rle_trans; [|eapply Rle_trans; [exact H|]].
    - right. apply expect_ext. intros z. f_equal. field. lra.
    - right. f_equal. field. lra.
  Qed.
End RC2.

Theorem rc_concentrates (lg : xr -> xr) n k bs s0 : (1 <= k <= n)%nat -> lg (XFin (INR (n / k))) = XFin (INR (Nat.log2_up (n / k))) ->
  (Z.of_nat (2 * k * Nat.log2_up (n / k)) < 2 ^ 64)%Z -> (N.of_nat (n / k) <= u32_max)%N -> Nat.even k = true ->
  calc_buffer_size lg n k = Ret bs -> rc_new lg n k = Ret s0 ->
  concentrated rc_digest s0 (Z.of_nat n) (fun _ _ => 2 / (INR k * INR bs)) /\
  forall h, (n * (k + 1) ^ S h <= bs / 2 * (2 * k) ^ S h)%nat ->
    concentrated rc_digest s0 (Z.of_nat n) (fun rs v => 2 * (1 + / INR k) ^ (2 * h) / (INR k * INR (bs / 2)) * (upto v rs / size rs) ^ 2).
Proof.
  intros Hk Hlg H64 Hu He Hbs E. destruct (@rc_params_xr lg n k Hk Hlg H64) as (B & HB & Hi & Hp).
  pose proof (@rc_new_val xr _ (xr_laws HB) lg n k Hp) as E'. pose proof (@calc_size xr _ (xr_laws HB) lg n k Hp) as Ebs.
  rewrite Hbs in Ebs. injection Ebs as ->. rewrite E in E'. injection E' as ->.
  split; [exact (@rc_concentrated B HB lg n k Hp Hu He Hi)|]. intros h Hh. exact (@rc_concentrated_rel B HB lg n k Hp Hu He Hi h Hh).
Qed.
Theorem rc2_concentrates extra k n o h : k_ok k -> fewer k n -> (N.of_nat n <= N.of_nat (min_sec k) * u32_max)%N -> Nat.odd o = true -> (o <= min_sec k + 1)%nat ->
  ((o + 1) ^ h * n < 6 * N.to_nat k * (2 * o) ^ h)%nat ->
  concentrated (rc2_digest extra) (rc2_new k) (Z.of_nat n) (fun rs _ => var2 k o h (length rs) / size rs ^ 2).
Proof.
  intros Hk Hf Hu Ho1 Ho2 Hh. destruct (xr_room (INR n + err2 k o h n)) as (B & HB & Hi).
  exact (@rc2_concentrated B HB extra k n o h Hk Hf Hu Ho1 Ho2 Hh Hi).
Qed.
