(** The IEEE formats: one product and one quotient are rounded mildly, so the quantile answers stay in [0,1]. *)
From Coq Require Import List Arith ZArith Lia Bool Permutation Sorted Reals Lra.
From Flocq Require Import Core Relative BinarySingleNaN.
From Verif Require Import Base Floats XReal IEEE Digest TDigest Spec FloatFacts History MultiSymProofs TDigestProofs TDigestProofs2 TDigestTop TDigestCluster ParTDProofs TDigestRange TDigestRange2.
Set Implicit Arguments.

Local Open Scope R_scope.

Section Mild.
  Variables prec emax : Z.
  Context {FM : Fmt prec emax}.
  Notation bf := (binary_float prec emax).
  #[local] Existing Instance ieee_ops.
  #[local] Existing Instance ieee_laws.
  Variables (B : R) (N : Z).
  Hypothesis HB : forall k, (Z.abs k <= N)%Z -> bexact prec emax (IZR k * B).
  Hypothesis HN : (2 <= N)%Z /\ (2 * N <= 2 ^ prec)%Z.

  Lemma half_exact z : (0 <= z <= N)%Z -> bexact prec emax (IZR z / 2 + 1 / 2).
  Proof. intros H. replace (IZR z / 2 + 1 / 2) with (IZR (z + 1) / 2) by (rewrite plus_IZR; lra). apply bexact_half; [exact FM|lia]. Qed.

  Lemma ieee_mild : @mild_rounding bf _ (ieee_laws prec emax) B N.
  Proof.
    intros z x y Hz Hx Hy Ex Ey. change (bexact prec emax x) in Ex. change (bexact prec emax y) in Ey.
    assert (0 <= IZR z) as Hz0 by (apply IZR_le; lia). assert (IZR z <= IZR N) as HzN by (apply IZR_le; lia).
    assert (0 <= IZR z / 2 * x <= IZR N * B) as Hdx.
    { split; [nra|]. apply Rle_trans with (IZR z / 2 * (2 * B)); [apply Rmult_le_compat_l; lra|]. nra. }
    destruct (@frnd_range bf _ (ieee_laws prec emax) 0 (IZR N * B) (IZR z / 2 * x)) as (p & Hp & Hp1); auto.
    { apply fexact_0. } { apply HB. lia. }
    assert (p / y <= IZR z / 2 + 1 / 2) as Hpy.
    { assert (p = round radix2 (FLT_exp (SpecFloat.emin prec emax) prec) ZnearestE (IZR z / 2 * x)) as Ep.
      { change (brnd prec emax (IZR z / 2 * x) = XFin p) in Hp. unfold brnd in Hp.
        destruct (Rlt_bool _ _); [|discriminate]. injection Hp as <-. reflexivity. }
      destruct (@error_N_FLT radix2 (SpecFloat.emin prec emax) prec fmt_prec_gt (fun x => negb (Z.even x)) (IZR z / 2 * x)) as (e & h & He & Hh & Heh & E).
      rewrite <- Ep in E. clear Ep.
      assert (bpow radix2 (SpecFloat.emin prec emax) <= y) as Hmin.
      { apply generic_format_ge_bpow with (fexp := SpecFloat.fexp prec emax); [|lra|apply Ey]. intros k. unfold SpecFloat.fexp. lia. }
      pose proof (bpow_gt_0 radix2 (SpecFloat.emin prec emax)) as Hpos. set (m := bpow radix2 (SpecFloat.emin prec emax)) in *. clearbody m.
      apply Rmult_le_reg_r with y; [lra|]. replace (p / y * y) with p by (field; lra).
      assert (IZR z / 2 * x <= IZR z / 2 * y) as Hxy by (apply Rmult_le_compat_l; lra).
      apply Rabs_le_inv in He. apply Rabs_le_inv in Hh. rewrite E. apply Rmult_integral in Heh as [->| ->].
      - lra.
      - assert (IZR z * (/ 2 * bpow radix2 (- prec + 1)) <= 1 / 2) as Hu.
        { rewrite bpow_plus. replace (bpow radix2 1) with 2 by reflexivity. rewrite bpow_opp.
          assert (2 * IZR z <= bpow radix2 prec) as Hb.
          { rewrite <- IZR_Zpower by (pose proof (@fmt_prec_gt _ _ FM) as K; unfold Prec_gt_0 in K; lia). rewrite <- mult_IZR. apply IZR_le. change (2 * z <= 2 ^ prec)%Z. lia. }
          pose proof (bpow_gt_0 radix2 prec) as Hbp. apply Rmult_le_reg_r with (bpow radix2 prec); [lra|].
          replace (IZR z * (/ 2 * (/ bpow radix2 prec * 2)) * bpow radix2 prec) with (IZR z) by (field; lra). lra. }
        assert (IZR z / 2 * x * e <= IZR z / 2 * y * (/ 2 * bpow radix2 (- prec + 1))).
        { apply Rle_trans with (IZR z / 2 * x * (/ 2 * bpow radix2 (- prec + 1))).
          - apply Rmult_le_compat_l; [nra|lra].
          - apply Rmult_le_compat_r; [|lra]. pose proof (bpow_gt_0 radix2 (- prec + 1)). lra. }
        nra. }
    assert (0 <= p / y) as Hpy0.
    { unfold Rdiv. apply Rmult_le_pos; [lra|]. left. apply Rinv_0_lt_compat. lra. }
    destruct (@frnd_range bf _ (ieee_laws prec emax) 0 (IZR z / 2 + 1 / 2) (p / y)) as (t & Ht & Ht1); [|apply half_exact; auto|lra|].
    { apply fexact_0. }
    exists p, t. auto.
  Qed.
End Mild.


Lemma f64_mild : @mild_rounding f64 _ f64_laws (bpow radix2 900) (2 ^ 52).
Proof. apply ieee_mild; [exact f64_scaled_exact|split; discriminate]. Qed.

(** ** f32: magnitudes up to 2^100, up to 2^23 items *)
Lemma f32_scaled_exact k : (Z.abs k <= 2 ^ 23)%Z -> @fexact f32 _ f32_laws (IZR k * bpow radix2 100).
Proof.
  intros Hk. change (bexact 24 128 (IZR k * bpow radix2 100)).
  change (IZR k * bpow radix2 100) with (F2R (Float radix2 k 100)). split.
  - change (SpecFloat.fexp 24 128) with (FLT_exp (SpecFloat.emin 24 128) 24). apply generic_format_FLT.
    exists (Float radix2 k 100); cbn [Fnum Fexp]; auto.
    + change (radix2 ^ 24)%Z with (2 ^ 24)%Z. apply Z.le_lt_trans with (1 := Hk). reflexivity.
    + unfold SpecFloat.emin. lia.
  - rewrite <- F2R_Zabs. unfold F2R; cbn [Fnum Fexp].
    apply Rle_lt_trans with (bpow radix2 23 * bpow radix2 100).
    + apply Rmult_le_compat_r; [apply bpow_ge_0|]. rewrite <- (IZR_Zpower radix2 23) by lia. apply IZR_le. exact Hk.
    + rewrite <- bpow_plus. apply bpow_lt. lia.
Qed.

Lemma f32_mild : @mild_rounding f32 _ f32_laws (bpow radix2 100) (2 ^ 23).
Proof. apply ieee_mild; [exact f32_scaled_exact|split; discriminate]. Qed.

Definition moderate32 (x : f32) : Prop := exists r, fval x = XFin r /\ Rabs r <= bpow radix2 100.
(** inputs of moderate size, quantile queries not NaN, value queries in [0,1] *)
Definition f32_ok (o : op f32) : Prop :=
  match o with
  | Add x => moderate32 x
  | AddBuf l => Forall moderate32 l
  | Quant v => fisnan v = false
  | Val q => exists r, fval q = XFin r /\ 0 <= r <= 1
  end.

(** ** The answers, for all histories *)
Lemma n52 : (2 <= 2 ^ 52)%Z /\ (2 * 2 ^ 52 <= fint (F := f64))%Z /\ (2 ^ 52 <= 2 ^ 53)%Z.
Proof. repeat split; discriminate. Qed.
Lemma n23 : (2 <= 2 ^ 23)%Z /\ (2 * 2 ^ 23 <= fint (F := f32))%Z /\ (2 ^ 23 <= 2 ^ 53)%Z.
Proof. repeat split; discriminate. Qed.

Lemma ok64 ops : Forall f64_ok ops -> Forall (td_ok_op (bpow radix2 900)) ops.
Proof. intros H. eapply Forall_impl; [|exact H]. intros [x|l|v|q]; cbn; auto. Qed.
Lemma ok32 ops : Forall f32_ok ops -> Forall (td_ok_op (bpow radix2 100)) ops.
Proof. intros H. eapply Forall_impl; [|exact H]. intros [x|l|v|q]; cbn; auto. Qed.

(** [a] is a number between 0 and 1 *)
Definition in_unit {F} {FO : FloatOps F} (a : F) : Prop := fle (fofZ 0) a = true /\ fle a (fofZ 1) = true.

Lemma unit_in {F} {FO : FloatOps F} {FL : FloatLaws F} (a : F) : unit_val a -> in_unit a.
Proof.
  intros (r & Hr & H0 & H1). unfold in_unit.
  assert (fval (fofZ 0) = XFin 0) as E0 by apply fval_f0. assert (fval (fofZ 1) = XFin 1) as E1 by apply fval_f1.
  rewrite (fle_val E0 Hr), (fle_val Hr E1). auto.
Qed.

Theorem td_unit_f64 (cfg : tcfg f64) (Hlib : lib_ok cfg) ops : Forall f64_ok ops -> items_of ops <> [] -> (Z.of_nat (length (items_of ops)) <= 2 ^ 52)%Z ->
  always (fun r => forall v, fisnan v = false -> exists a, d_est_q (t_digest cfg) (fst r) v = Ret (fst r, a) /\ in_unit a) (exec (t_digest cfg) td_new ops).
Proof.
  intros Hok Hne Hn. eapply always_mono.
  - apply (@td_history_unit f64 _ f64_laws (bpow radix2 900) (2 ^ 52) f64_scaled_exact n52 cfg Hlib f64_mild); auto using ok64.
  - intros r H v Hv. destruct (H v Hv) as (a & Ha & Hu). exists a. split; auto. now apply unit_in.
Qed.

Theorem td_unit_f32 (cfg : tcfg f32) (Hlib : lib_ok cfg) ops : Forall f32_ok ops -> items_of ops <> [] -> (Z.of_nat (length (items_of ops)) <= 2 ^ 23)%Z ->
  always (fun r => forall v, fisnan v = false -> exists a, d_est_q (t_digest cfg) (fst r) v = Ret (fst r, a) /\ in_unit a) (exec (t_digest cfg) td_new ops).
Proof.
  intros Hok Hne Hn. eapply always_mono.
  - apply (@td_history_unit f32 _ f32_laws (bpow radix2 100) (2 ^ 23) f32_scaled_exact n23 cfg Hlib f32_mild); auto using ok32.
  - intros r H v Hv. destruct (H v Hv) as (a & Ha & Hu). exists a. split; auto. now apply unit_in.
Qed.

Theorem td_total_f32 (cfg : tcfg f32) (Hlib : lib_ok cfg) ops : Forall f32_ok ops -> (Z.of_nat (length (items_of ops)) <= 2 ^ 23)%Z ->
  always (fun r => let s := fst r in
      d_count (t_digest cfg) s = Ret (Z.of_nat (length (items_of ops))) /\
      (forall v, fisnan v = false -> exists a, d_est_q (t_digest cfg) s v = Ret (s, a)) /\
      (forall q p, fval q = XFin p -> 0 <= p <= 1 -> exists a, d_est_v (t_digest cfg) s q = Ret (s, a)))
    (exec (t_digest cfg) td_new ops).
Proof.
  intros Hok Hn.
  pose proof (@td_exec_sound f32 _ f32_laws (bpow radix2 100) (2 ^ 23) f32_scaled_exact n23 cfg Hlib ops (ok32 Hok) Hn) as HT.
  eapply always_mono; [exact HT|]. intros [s l] [[[Hh Hb] _] _]; cbn [fst] in *. cbv zeta.
  assert (Z.of_nat (length (items_of ops)) <= 2 ^ 53)%Z as Hn' by (apply Z.le_trans with (1 := Hn); discriminate).
  split; [|split].
  - apply (holds_count Hh); auto. apply Z.le_trans with (1 := Hn). discriminate.
  - intros v Hv. destruct (@td_est_q_total f32 _ _ s v Hv) as [a Ha].
    { eapply Forall_impl; [|exact Hb]. intros c. apply bnd_nn. }
    exists a. cbn [d_est_q t_digest]. rewrite Ha. reflexivity.
  - intros q p Hq Hp. destruct (@td_est_v_total f32 _ f32_laws s _ q p Hh) as [a Ha]; auto.
    { change (2 * Z.of_nat (length (items_of ops)) <= 2 ^ 24)%Z. change (2 ^ 24)%Z with (2 * 2 ^ 23)%Z. lia. }
    exists a. cbn [d_est_v t_digest]. rewrite Ha. reflexivity.
Qed.

Section Par.
  Variables (threads capacity : nat).
  Hypothesis Hth : (1 <= threads)%nat.

  Theorem pt_unit_f64 (cfg : tcfg f64) (Hlib : lib_ok cfg) ops : Forall f64_ok ops -> items_of ops <> [] -> (Z.of_nat (length (items_of ops)) <= 2 ^ 52)%Z ->
    always (fun r => let D := par_t_digest cfg threads capacity td_new in
        d_count D (fst r) = Ret (Z.of_nat (length (items_of ops))) /\
        (forall v, fisnan v = false -> exists s' a, d_est_q D (fst r) v = Ret (s', a) /\ in_unit a) /\
        (forall q p, fval q = XFin p -> 0 <= p <= 1 -> exists s' a, d_est_v D (fst r) q = Ret (s', a)))
      (exec (par_t_digest cfg threads capacity td_new) (pt_new td_new) ops).
  Proof.
    intros Hok Hne Hn. eapply always_mono.
    - apply (@pt_history_unit f64 _ f64_laws (bpow radix2 900) (2 ^ 52) f64_scaled_exact n52 cfg Hlib f64_mild threads capacity Hth); auto using ok64.
    - intros r (H1 & H2 & H3). split; [exact H1|split; [|exact H3]]. intros v Hv. destruct (H2 v Hv) as (s' & a & Ha & Hu). exists s', a. split; auto. now apply unit_in.
  Qed.

  Theorem pt_unit_f32 (cfg : tcfg f32) (Hlib : lib_ok cfg) ops : Forall f32_ok ops -> items_of ops <> [] -> (Z.of_nat (length (items_of ops)) <= 2 ^ 23)%Z ->
    always (fun r => let D := par_t_digest cfg threads capacity td_new in
        d_count D (fst r) = Ret (Z.of_nat (length (items_of ops))) /\
        (forall v, fisnan v = false -> exists s' a, d_est_q D (fst r) v = Ret (s', a) /\ in_unit a) /\
        (forall q p, fval q = XFin p -> 0 <= p <= 1 -> exists s' a, d_est_v D (fst r) q = Ret (s', a)))
      (exec (par_t_digest cfg threads capacity td_new) (pt_new td_new) ops).
  Proof.
    intros Hok Hne Hn. eapply always_mono.
    - apply (@pt_history_unit f32 _ f32_laws (bpow radix2 100) (2 ^ 23) f32_scaled_exact n23 cfg Hlib f32_mild threads capacity Hth); auto using ok32.
    - intros r (H1 & H2 & H3). split; [exact H1|split; [|exact H3]]. intros v Hv. destruct (H2 v Hv) as (s' & a & Ha & Hu). exists s', a. split; auto. now apply unit_in.
  Qed.
End Par.
