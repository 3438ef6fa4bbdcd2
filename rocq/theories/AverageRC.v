(** RCSketch and RCSketch2 as unbiased estimators of quantiles in exact arithmetic, over histories that also contain queries. *)
From Coq Require Import List Arith ZArith NArith Lia Bool Reals Lra.
From Verif Require Import Base Floats XReal Digest Spec FloatFacts History LinearProofs WrapProofs MultiSymProofs.
From Verif Require Import ParallelProofs TDigestExact TDigestHist TDigestAcc TDigestAcc2 TDigestDrift.
From Verif Require Import TDigest RCSketch RCProofs RCHist RCRank RCExpect RCTop RCQuery RCObs RCObs2 RCRel RCRelTop RCValue RC2 RC2Sections RC2Proofs RC2Hist RC2Rank RC2Top RC2Var RC2Value RCSym.
From Verif Require Import Accurate AccuratePar AccurateTop AccurateRC AccurateRC2 Average.
Set Implicit Arguments.
Set Universe Polymorphism.
Unset Universe Minimization ToSet.
Local Open Scope R_scope.

(** the insertions of a history *)
Fixpoint rops (ops : list (op xr)) : list (rop xr) :=
  match ops with
  | [] => []
  | Digest.Add x :: ops' => RAdd x :: rops ops'
  | Digest.AddBuf l :: ops' => RBuf l :: rops ops'
  | _ :: ops' => rops ops'
  end.
Lemma rops_items ops : ritems_of (rops ops) = items_of ops.
Proof. induction ops as [|[x|l|v|q] ops IH]; cbn [rops items_of]; try exact IH; [reflexivity| |]; unfold ritems_of in *; cbn [map concat ritems app]; now rewrite IH. Qed.
Lemma rops_mode ops : default_mode (rops ops).
Proof. induction ops as [|[x|l|v|q] ops IH]; cbn [rops]; try exact IH; [constructor| |]; (constructor; [split; reflexivity|exact IH]). Qed.

Section RC.
  Variable B : Z.
  Hypothesis HB : (4096 <= B)%Z.
  Local Instance FLa : FloatLaws xr := xr_laws HB.
  Variables (lg : xr -> xr) (n k : nat).
  Hypothesis Hp : @rc_params xr _ FLa lg n k.
  Hypothesis Hu : (N.of_nat (n / k) <= u32_max)%N.
  Hypothesis He : Nat.even k = true.
  Hypothesis Hi : (Z.of_nat n <= B)%Z.
  Notation D := (@rc_digest xr _).

  Lemma deep : exists h, (n < spec_size n k * 2 ^ h)%nat.
  Proof using Hp. clear Hu He Hi.
    exists n. destruct (@spec_size_ge n k (proj1 Hp)) as [H _]. pose proof (Nat.pow_gt_lin_r 2 n ltac:(lia)). nia.
  Qed.

  (** queries change nothing *)
  Lemma rc_states ops : forall s its (g : rc xr -> R), @rc_inv n k s its -> ok_hist (@rc_fine n) its ops ->
    expect (fun r => g (fst r)) (exec D s ops) = expect g (rexec s (rops ops)).
  Proof using Hp Hu He Hi.
    destruct deep as [h Hh]. induction ops as [|o ops IH]; intros s its g HI HO; [reflexivity|]. destruct HO as [Ho HO].
    pose proof (@rc_step B HB lg n k h Hp Hu He Hi Hh s its o HI Ho) as HS.
    cbn [exec]. rewrite expect_bind.
    transitivity (expect (fun r => expect g (rexec (fst r) (rops ops))) (step D s o)).
    { eapply expect_ext_always; [exact HS|]. intros [s' al] HI'. cbn [fst] in *. rewrite expect_bind. rewrite <- (IH s' _ g HI' HO).
      apply expect_ext. intros [s2 al2]. reflexivity. }
    destruct HI as (HR & Hn & Hl). pose proof (@reached_good xr _ FLa lg n k Hp Hu He s its HR Hn Hl) as G.
    destruct Ho as (Ho & Hq & Hlen). destruct o as [x|l|v|q]; cbn [step rops is_query] in *.
    - rewrite expect_bind. cbn [expect fst]. unfold rexec. cbn [foldM]. rewrite expect_bind. reflexivity.
    - rewrite expect_bind. cbn [expect fst]. unfold rexec. cbn [foldM]. rewrite expect_bind. reflexivity.
    - cbn [d_est_q rc_digest]. destruct (@good_quantile xr _ FLa lg n k Hp Hu He Hi s its v G (Hq eq_refl) Hl) as (a & r & E & _). rewrite E. reflexivity.
    - cbn [d_est_v rc_digest]. destruct (@good_value xr _ FLa lg n k Hp Hu He Hi s its q G (Hq eq_refl) Hl) as (a & E & _). rewrite E. reflexivity.
  Qed.

  Section Run.
    Variables (ops : list (op xr)) (rs : list R) (v : R).
    Hypotheses (Hf : fine ops) (Hits : items_of ops = map XFin rs) (Hne : rs <> []) (Hl : (Z.of_nat (length rs) <= Z.of_nat n)%Z).
    Notation N := (INR (length rs)).
    Let HL : (Z.of_nat (length (items_of ops)) <= Z.of_nat n)%Z.
    Proof using Hits Hl. rewrite Hits, map_length. exact Hl. Qed.
    Let HN : 0 < N.
    Proof using Hne. apply lt_0_INR. destruct rs; [congruence|cbn; lia]. Qed.
    Lemma rops_proper : @proper xr _ FLa lg n k (rops ops).
    Proof using Hp Hu Hf Hits Hl.
      split; [exact Hp|]. unfold in_range. rewrite rops_items. split; [right; split; [lia|exact Hu]|]. rewrite Hits. apply fin_nn, Forall_forall. intros x Hx. apply in_map_iff in Hx as (r & <- & _). now exists r.
    Qed.
    Lemma rops_few : few_levels n k (rops ops).
    Proof using Hu Hits Hl.
      right. rewrite rops_items. split; [|split; [lia|exact Hu]]. pose proof (rops_mode ops) as H. eapply Forall_impl; [|exact H]. intros o []. assumption.
    Qed.
    (** the estimate is the rank divided by the number of items *)
    Lemma rc_answer (f : R -> R) : expect (fun r => f (last_answer r)) (exec D (rc_fresh n k) (ops ++ [Quant (XFin v)])) =
      expect (fun z => f (IZR z / N)) (rank_after lg n k (rops ops) (XFin v)).
    Proof using Hp Hu He Hi Hf Hits Hne Hl.
      destruct deep as [h Hh]. rewrite ask_expect.
      rewrite (@rank_after_expect xr _ FLa lg n k (rops ops) (XFin v) (fun z => f (IZR z / N)) rops_proper (default_mode_method (rops_mode ops)) rops_few).
      pose proof (@rc_hist B HB lg n k h Hp Hu He Hi Hh ops Hf HL) as HH.
      destruct Hf as [F1 F2]. assert (ok_hist (@rc_fine n) [] ops) as HO by (apply fine_hist; auto; cbn [length]; lia).
      assert (@rc_inv n k (rc_fresh n k) []) as HI by (split; [exact (@reached_nil xr _ n k)|split; [constructor|cbn; lia]]).
      rewrite <- (@rc_states ops (rc_fresh n k) [] (fun s => f (IZR (Z.of_nat (lv_rank (rc_levels s) (XFin v))) / N)) HI HO).
      eapply expect_ext_always; [exact HH|]. intros [s al] (HR & Hn & Hln). cbn [fst] in *.
      pose proof (@reached_good xr _ FLa lg n k Hp Hu He _ _ HR Hn Hln) as G.
      assert (items_of ops <> []) as Hne' by (rewrite Hits; destruct rs; [congruence|discriminate]).
      destruct (@good_quantile xr _ FLa lg n k Hp Hu He Hi s _ (XFin v) G Hne' Hln) as (a & r & E & Ea & _ & Er & _).
      cbn [d_est_q rc_digest]. rewrite E. cbn [bind expect snd]. change (a = XFin r) in Ea. subst a. cbn [real]. f_equal.
      rewrite Hits, map_length in Er. change (XFin (INR (lv_rank (rc_levels s) (XFin v)) / N) = XFin r) in Er. injection Er as <-. now rewrite <- INR_IZR_INZ.
    Qed.
    Lemma rc_runs_always : always (fun _ => True) (rank_after lg n k (rops ops) (XFin v)).
    Proof using Hp Hu Hf Hits Hl.
      apply (@rank_after_always xr _ FLa lg n k (rops ops) (XFin v) (fun _ => True) rops_proper (default_mode_method (rops_mode ops)) rops_few).
      apply whenever_true.
    Qed.
    Lemma rc_mean : expect last_answer (exec D (rc_fresh n k) (ops ++ [Quant (XFin v)])) = upto v rs / N.
    Proof using Hp Hu He Hi Hf Hits Hne Hl.
      refine (eq_trans (rc_answer (fun x => x)) _). cbv beta.
      transitivity (/ N * expect IZR (rank_after lg n k (rops ops) (XFin v))); [rewrite <- expect_scal; apply expect_ext; intros z; unfold Rdiv; ring|].
      rewrite (@rank_unbiased xr _ FLa lg n k (rops ops) (XFin v) rops_proper (default_mode_method (rops_mode ops)) rops_few), rops_items, Hits, lin_upto. unfold Rdiv. ring.
    Qed.
    Lemma rc_mse : expect (fun r => (last_answer r - upto v rs / N) ^ 2) (exec D (rc_fresh n k) (ops ++ [Quant (XFin v)])) =
      / N ^ 2 * expect (fun z => (IZR z - INR (n_le (ritems_of (rops ops)) (XFin v))) ^ 2) (rank_after lg n k (rops ops) (XFin v)).
    Proof using Hp Hu He Hi Hf Hits Hne Hl.
      rewrite (rc_answer (fun x => (x - upto v rs / N) ^ 2)), <- expect_scal. apply expect_ext. intros z. rewrite rops_items, Hits, lin_upto. field. lra.
    Qed.
    Lemma rc_last : always (fun r => exists al x, snd r = al ++ [XFin x]) (exec D (rc_fresh n k) (ops ++ [Quant (XFin v)])).
    Proof using Hp Hu He Hi Hf Hits Hne Hl.
      destruct deep as [h Hh]. pose proof (@rc_rank B HB lg n k h Hp Hu He Hi Hh) as HA.
      assert (items_of ops <> []) as Hne' by (rewrite Hits; destruct rs; [congruence|discriminate]).
      assert (fine (ops ++ [Quant (XFin v)])) as Hf' by (apply fine_ask; auto; now exists v).
      pose proof (ra_runs HA Hf') as HR. rewrite items_of_app in HR. cbn [items_of] in HR. rewrite app_nil_r in HR.
      refine (@always_mono _ _ _ _ (@always_whenever_and _ _ _ _ (HR HL) (ra_rank HA v Hf Hits Hne Hl)) _).
      intros r [_ (al & x & E & _)]. eauto.
    Qed.
  End Run.

  Lemma rc_unbiased_by (a : list R -> R -> R) :
    (forall ops rs v, fine ops -> items_of ops = map XFin rs -> rs <> [] -> (Z.of_nat (length rs) <= Z.of_nat n)%Z ->
       expect (fun z => (IZR z - INR (n_le (ritems_of (rops ops)) (XFin v))) ^ 2) (rank_after lg n k (rops ops) (XFin v)) <= a rs v * INR (length rs) ^ 2) ->
    unbiased D (rc_fresh n k) (Z.of_nat n) a.
  Proof using Hp Hu He Hi.
    intros HM. destruct deep as [h Hh]. pose proof (@rc_rank B HB lg n k h Hp Hu He Hi Hh) as HA. split.
    - intros ops Hf Hl. exact (ra_runs HA Hf Hl).
    - intros ops rs v Hf Hits Hne Hl. exact (rc_last v Hf Hits Hne Hl).
    - intros ops rs v Hf Hits Hne Hl. exact (rc_mean v Hf Hits Hne Hl).
    - intros ops rs v Hf Hits Hne Hl. rewrite (rc_mse v Hf Hits Hne Hl).
      assert (0 < INR (length rs)) as HN by (apply lt_0_INR; destruct rs; [congruence|cbn; lia]).
      apply Rmult_le_reg_l with (INR (length rs) ^ 2); [apply pow_lt, HN|]. rewrite <- Rmult_assoc, Rinv_r, Rmult_1_l by (apply pow_nonzero; lra).
      rewrite Rmult_comm. exact (HM ops rs v Hf Hits Hne Hl).
  Qed.
  Lemma size_pos : 0 < INR k * INR (spec_size n k) /\ 0 < INR k * INR (spec_size n k / 2).
  Proof using Hp. clear Hu He Hi.
    destruct (@spec_size_ge n k (proj1 Hp)) as [H _]. pose proof (proj1 Hp) as H1.
    assert (1 <= spec_size n k / 2)%nat by (apply Nat.div_le_lower_bound; lia).
    split; apply Rmult_lt_0_compat; apply lt_0_INR; lia.
  Qed.
  Theorem rc_unbiased : unbiased D (rc_fresh n k) (Z.of_nat n) (fun _ _ => 2 / (INR k * INR (spec_size n k))).
  Proof using Hp Hu He Hi.
    apply rc_unbiased_by. intros ops rs v Hf Hits Hne Hl.
    pose proof (@rank_variance_total xr _ FLa lg n k (rops ops) (XFin v) (spec_size n k) ltac:(eapply rops_proper; eauto) (rops_mode ops) ltac:(eapply rops_few; eauto) He (@calc_size xr _ FLa lg n k Hp)) as H.
    rewrite rops_items in *. replace (length (items_of ops)) with (length rs) in H by (rewrite Hits; symmetry; apply map_length).
    destruct size_pos as [HS _]. apply Rmult_le_reg_l with (INR k * INR (spec_size n k)); [exact HS|].
    replace (INR k * INR (spec_size n k) * (2 / (INR k * INR (spec_size n k)) * INR (length rs) ^ 2)) with (2 * INR (length rs) ^ 2); [exact H|]. field.
    split; intros E0; rewrite E0 in HS; lra.
  Qed.
  Theorem rc_unbiased_rel h : (n * (k + 1) ^ S h <= spec_size n k / 2 * (2 * k) ^ S h)%nat ->
    unbiased D (rc_fresh n k) (Z.of_nat n) (fun rs v => 2 * (1 + / INR k) ^ h / (INR k * INR (spec_size n k / 2)) * (upto v rs / INR (length rs)) ^ 2).
  Proof using Hp Hu He Hi.
    intros Hh. apply rc_unbiased_by. intros ops rs v Hf Hits Hne Hl.
    assert (n_le (ritems_of (rops ops)) (XFin v) <= n)%nat as Hle.
    { rewrite rops_items, Hits. unfold n_le. eapply Nat.le_trans; [apply filter_length_le|]. rewrite map_length. lia. }
    assert (n_le (ritems_of (rops ops)) (XFin v) * (k + 1) ^ S h <= spec_size n k / 2 * (2 * k) ^ S h)%nat as Hh'.
    { eapply Nat.le_trans; [|exact Hh]. apply Nat.mul_le_mono_r, Hle. }
    pose proof (@rank_relative_mse xr _ FLa lg n k (rops ops) (XFin v) (spec_size n k) h ltac:(eapply rops_proper; eauto) (rops_mode ops) ltac:(eapply rops_few; eauto) (@calc_size xr _ FLa lg n k Hp) Hh') as H.
    assert (INR (n_le (ritems_of (rops ops)) (XFin v)) = upto v rs) as EU by (rewrite rops_items, Hits; apply lin_upto).
    rewrite EU in *. destruct size_pos as [_ HS]. apply Rmult_le_reg_l with (INR k * INR (spec_size n k / 2)); [exact HS|].
    assert (0 < INR (length rs)) as HN by (apply lt_0_INR; destruct rs; [congruence|cbn; lia]).
    eapply Rle_trans; [exact H|]. right. field. split; [lra|]. split; intros E0; rewrite E0 in HS; lra.
  Qed.
End RC.

Section RC2.
  Variable B : Z.
  Hypothesis HB : (4096 <= B)%Z.
  Local Instance FLb : FloatLaws xr := xr_laws HB.
  Variables (extra : nat) (k : N) (n o h : nat).
  Hypothesis Hk : k_ok k.
  Hypothesis Hf : fewer k n.
  Hypothesis Hu : (N.of_nat n <= N.of_nat (min_sec k) * u32_max)%N.
  Hypothesis Ho1 : Nat.odd o = true.
  Hypothesis Ho2 : (o <= min_sec k + 1)%nat.
  Hypothesis Hh : ((o + 1) ^ h * n < 6 * N.to_nat k * (2 * o) ^ h)%nat.
  Hypothesis Hi : INR n + err2 k o h n <= IZR B.
  Notation D := (@rc2_digest xr _ extra).
  Notation inv := (@rc2_inv extra k n).

  Lemma rc2_states ops : forall s its (g : rc2 xr -> R), inv s its -> ok_hist (@rc2_fine n) its ops ->
    expect (fun r => g (fst r)) (exec D s ops) = expect g (rexec2 extra s (rops ops)).
  Proof using HB Hk Hf Hu Ho1 Ho2 Hh Hi.
    induction ops as [|o0 ops IH]; intros s its g HI HO; [reflexivity|]. destruct HO as [Ho HO].
    pose proof (@rc2_step B HB extra k n o h Hk Hf Hu Ho1 Ho2 Hh Hi s its o0 HI Ho) as HS.
    cbn [exec]. rewrite expect_bind.
    transitivity (expect (fun r => expect g (rexec2 extra (fst r) (rops ops))) (step D s o0)).
    { eapply expect_ext_always; [exact HS|]. intros [s' al] HI'. cbn [fst] in *. rewrite expect_bind. rewrite <- (IH s' _ g HI' HO).
      apply expect_ext. intros [s2 al2]. reflexivity. }
    destruct Ho as (Ho & Hq & Hlen). destruct o0 as [x|l|v|q]; cbn [step rops is_query] in *.
    - rewrite expect_bind. cbn [expect fst]. unfold rexec2. cbn [foldM]. rewrite expect_bind. reflexivity.
    - rewrite expect_bind. cbn [expect fst]. unfold rexec2. cbn [foldM]. rewrite expect_bind. reflexivity.
    - cbn [d_est_q rc2_digest]. destruct (@rc2_quantile B HB extra k n o h Hk Hf Hu Ho1 Ho2 Hh Hi s its v HI (Hq eq_refl)) as (a & E & _). rewrite E. reflexivity.
    - cbn [d_est_v rc2_digest]. destruct Ho as (r & -> & Hr). destruct (@rc2_good B HB extra k n o h Hk Hf Hu Ho1 Ho2 Hh Hi s its r HI (Hq eq_refl) Hr) as (_ & _ & _ & x & E & _). rewrite E. reflexivity.
  Qed.

  Section Run.
    Variables (ops : list (op xr)) (rs : list R) (v : R).
    Hypotheses (Hfi : fine ops) (Hits : items_of ops = map XFin rs) (Hne : rs <> []) (Hl : (Z.of_nat (length rs) <= Z.of_nat n)%Z).
    Notation N := (INR (length rs)).
    Let HL : (Z.of_nat (length (items_of ops)) <= Z.of_nat n)%Z.
    Proof using Hits Hl. rewrite Hits, map_length. exact Hl. Qed.
    Let HN : 0 < N.
    Proof using Hne. apply lt_0_INR. destruct rs; [congruence|cbn; lia]. Qed.
    Lemma rops_nn : no_nan (ritems_of (rops ops)).
    Proof using Hits. rewrite rops_items, Hits. apply fin_nn, Forall_forall. intros x Hx. apply in_map_iff in Hx as (r & <- & _). now exists r. Qed.
    Lemma rops_proper2 : proper2 k (rops ops).
    Proof using Hk Hu Hits Hl. clear -Hk Hu HL. split; [exact Hk|]. right. rewrite rops_items. eapply N.le_trans; [|exact Hu]. lia. Qed.
    Lemma rops_few2 : few2 k (rops ops).
    Proof using Hk Hf Hu Ho2 Hh Hits Hl.
      assert (fewer k (length (ritems_of (rops ops)))) as H.
      { rewrite rops_items. eapply (@fewer_le k n o h Hf Hu Ho2 Hh). clear -HL. lia. }
      exact (@few_fewer xr k (rops ops) H).
    Qed.
    Let Hh' : ((o + 1) ^ h * length (ritems_of (rops ops)) < 6 * N.to_nat k * (2 * o) ^ h)%nat.
    Proof using Hh Hits Hl. rewrite rops_items. eapply Nat.le_lt_trans; [|exact Hh]. apply Nat.mul_le_mono_l. clear -HL. lia. Qed.
    Lemma rc2_answer (f : R -> R) : expect (fun r => f (last_answer r)) (exec D (rc2_new k) (ops ++ [Quant (XFin v)])) =
      expect (fun z => f (IZR z / N)) (rank_after2 extra k (rops ops) (XFin v)).
    Proof using HB Hk Hf Hu Ho1 Ho2 Hh Hi Hfi Hits Hne Hl.
      rewrite ask_expect.
      rewrite (@rank_after2_expect xr _ FLb extra k (rops ops) (XFin v) (fun z => f (IZR z / N)) rops_proper2 rops_few2 (default_mode_method (rops_mode ops)) rops_nn).
      pose proof (@rc2_hist B HB extra k n o h Hk Hf Hu Ho1 Ho2 Hh Hi ops Hfi HL) as HH.
      destruct Hfi as [F1 F2]. assert (ok_hist (@rc2_fine n) [] ops) as HO by (apply fine_hist; auto; cbn [length]; clear -HL; lia).
      assert (inv (rc2_new k) []) as HI.
      { assert (fine []) as Fn by (split; constructor). exact (@rc2_hist B HB extra k n o h Hk Hf Hu Ho1 Ho2 Hh Hi [] Fn (Nat2Z.is_nonneg n)). }
      unfold rc2_run. rewrite <- (@rc2_states ops (rc2_new k) [] (fun s => f (IZR (Z.of_nat (rank2 (r2_levels s) (XFin v))) / N)) HI HO).
      eapply expect_ext_always; [exact HH|]. intros [s al] HI'. cbn [fst] in *.
      assert (items_of ops <> []) as Hne' by (rewrite Hits; destruct rs; [congruence|discriminate]).
      assert (0 <= 0 <= 1) as H0 by lra. destruct (@rc2_good B HB extra k n o h Hk Hf Hu Ho1 Ho2 Hh Hi s _ 0 HI' Hne' H0) as (H1 & H2 & _).
      cbn [d_est_q rc2_digest]. unfold rc2_est_quantile, rc_est_quantile.
      rewrite interpolate_rank_val by (unfold as_rc; cbn [rc_levels]; rewrite map_length; eapply Nat.le_trans; [exact H1|apply Nat.leb_le; reflexivity]). cbn [bind].
      unfold as_rc. cbn [rc_count rc_levels]. rewrite H2, Hits, map_length. cbn [fdiv fofZ xr_ops xdiv]. rewrite <- (INR_IZR_INZ (length rs)).
      unfold rsign at 1. rewrite Raux.Rcompare_Gt by exact HN. reflexivity.
    Qed.
    Lemma rc2_mean : expect last_answer (exec D (rc2_new k) (ops ++ [Quant (XFin v)])) = upto v rs / N.
    Proof using HB Hk Hf Hu Ho1 Ho2 Hh Hi Hfi Hits Hne Hl.
      refine (eq_trans (rc2_answer (fun x => x)) _). cbv beta.
      transitivity (/ N * expect IZR (rank_after2 extra k (rops ops) (XFin v))); [rewrite <- expect_scal; apply expect_ext; intros z; unfold Rdiv; ring|].
      rewrite (@rank2_unbiased xr _ FLb extra k (rops ops) (XFin v) rops_proper2 rops_few2 (default_mode_method (rops_mode ops)) rops_nn), rops_items, Hits, lin_upto. unfold Rdiv. ring.
    Qed.
    Lemma rc2_mse : expect (fun r => (last_answer r - upto v rs / N) ^ 2) (exec D (rc2_new k) (ops ++ [Quant (XFin v)])) <= var2 k o h (length rs) / N ^ 2.
    Proof using HB Hk Hf Hu Ho1 Ho2 Hh Hi Hfi Hits Hne Hl.
      rewrite (rc2_answer (fun x => (x - upto v rs / N) ^ 2)).
      pose proof (@rank2_variance_explicit xr _ FLb extra k (rops ops) (XFin v) o h rops_proper2 rops_few2 (rops_mode ops) rops_nn Ho1 Ho2 Hh') as HV.
      apply Rle_trans with (/ N ^ 2 * expect (fun z => (IZR z - INR (n_le (ritems_of (rops ops)) (XFin v))) ^ 2) (rank_after2 extra k (rops ops) (XFin v))).
      - right. rewrite <- expect_scal. apply expect_ext. intros z. rewrite rops_items, Hits, lin_upto. field. lra.
      - unfold Rdiv. rewrite Rmult_comm. apply Rmult_le_compat_r; [apply Rlt_le, Rinv_0_lt_compat, pow_lt, HN|].
        eapply Rle_trans; [exact HV|]. rewrite rops_items, Hits, map_length. apply Rle_refl.
    Qed.
    Lemma rc2_last : always (fun r => exists al x, snd r = al ++ [XFin x]) (exec D (rc2_new k) (ops ++ [Quant (XFin v)])).
    Proof using HB Hk Hf Hu Ho1 Ho2 Hh Hi Hfi Hits Hne Hl.
      pose proof (@rc2_rank B HB extra k n o h Hk Hf Hu Ho1 Ho2 Hh Hi) as HA.
      assert (items_of ops <> []) as Hne' by (rewrite Hits; destruct rs; [congruence|discriminate]).
      assert (fine (ops ++ [Quant (XFin v)])) as Hf' by (apply fine_ask; auto; now exists v).
      pose proof (ra_runs HA Hf') as HR. rewrite items_of_app in HR. cbn [items_of] in HR. rewrite app_nil_r in HR.
      refine (@always_mono _ _ _ _ (@always_whenever_and _ _ _ _ (HR HL) (ra_rank HA v Hfi Hits Hne Hl)) _).
      intros r [_ (al & x & E & _)]. eauto.
    Qed.
  End Run.

  Theorem rc2_unbiased : unbiased D (rc2_new k) (Z.of_nat n) (fun rs _ => var2 k o h (length rs) / INR (length rs) ^ 2).
  Proof using HB Hk Hf Hu Ho1 Ho2 Hh Hi.
    pose proof (@rc2_rank B HB extra k n o h Hk Hf Hu Ho1 Ho2 Hh Hi) as HA. split.
    - intros ops H1 H2. exact (ra_runs HA H1 H2).
    - intros ops rs v H1 H2 H3 H4. exact (rc2_last v H1 H2 H3 H4).
    - intros ops rs v H1 H2 H3 H4. exact (rc2_mean v H1 H2 H3 H4).
    - intros ops rs v H1 H2 H3 H4. exact (rc2_mse v H1 H2 H3 H4).
  Qed.
End RC2.

(** in exact arithmetic no bound on what is exactly representable is needed *)
Theorem rc_estimates (lg : xr -> xr) n k bs s0 : (1 <= k <= n)%nat -> lg (XFin (INR (n / k))) = XFin (INR (Nat.log2_up (n / k))) ->
  (Z.of_nat (2 * k * Nat.log2_up (n / k)) < 2 ^ 64)%Z -> (N.of_nat (n / k) <= u32_max)%N -> Nat.even k = true ->
  calc_buffer_size lg n k = Ret bs -> rc_new lg n k = Ret s0 ->
  unbiased rc_digest s0 (Z.of_nat n) (fun _ _ => 2 / (INR k * INR bs)) /\
  forall h, (n * (k + 1) ^ S h <= bs / 2 * (2 * k) ^ S h)%nat ->
    unbiased rc_digest s0 (Z.of_nat n) (fun rs v => 2 * (1 + / INR k) ^ h / (INR k * INR (bs / 2)) * (upto v rs / size rs) ^ 2).
Proof.
  intros Hk Hlg H64 Hu He Hbs E. destruct (@rc_params_xr lg n k Hk Hlg H64) as (B & HB & Hi & Hp).
  pose proof (@rc_new_val xr _ (xr_laws HB) lg n k Hp) as E'. pose proof (@calc_size xr _ (xr_laws HB) lg n k Hp) as Ebs.
  rewrite Hbs in Ebs. injection Ebs as ->. rewrite E in E'. injection E' as ->.
  split; [exact (@rc_unbiased B HB lg n k Hp Hu He Hi)|]. intros h Hh. exact (@rc_unbiased_rel B HB lg n k Hp Hu He Hi h Hh).
Qed.
Theorem rc2_estimates extra k n o h : k_ok k -> fewer k n -> (N.of_nat n <= N.of_nat (min_sec k) * u32_max)%N -> Nat.odd o = true -> (o <= min_sec k + 1)%nat ->
  ((o + 1) ^ h * n < 6 * N.to_nat k * (2 * o) ^ h)%nat ->
  unbiased (rc2_digest extra) (rc2_new k) (Z.of_nat n) (fun rs _ => var2 k o h (length rs) / size rs ^ 2).
Proof.
  intros Hk Hf Hu Ho1 Ho2 Hh. destruct (xr_room (INR n + err2 k o h n)) as (B & HB & Hi).
  exact (@rc2_unbiased B HB extra k n o h Hk Hf Hu Ho1 Ho2 Hh Hi).
Qed.
