(** The chunk size of ParallelDigest (parallel_digest.rs:27), computed in f64, is the exact ceiling of len/d. *)
From Coq Require Import List Arith ZArith Lia Bool Reals Lra.
From Flocq Require Import Core BinarySingleNaN Relative.
From Verif Require Import Base Floats XReal IEEE Digest Spec FloatFacts.
Set Implicit Arguments.
Local Open Scope R_scope.

Lemma ceil_usize_fin (x : f64) r : fval x = XFin r -> 0 <= r <= IZR (2 ^ 53) -> ceil_usize x = Zceil r.
Proof.
  intros H [H0 H1].
  assert (0 <= Zceil r)%Z as C0.
  { apply Z.lt_pred_le. apply lt_IZR. apply Rlt_le_trans with r; [cbn; lra|]. apply Zceil_ub. }
  assert (Zceil r <= 2 ^ 53)%Z as C1 by (now apply Zceil_glb).
  pose proof (proj1 (bval_fin _ _) H) as [Hf Hr].
  destruct x as [s|s| |s m e Hb]; try discriminate.
  - cbn in Hr. subst r. cbn. change 0 with (IZR 0). now rewrite Zceil_IZR.
  - unfold ceil_usize.
    destruct (Bnearbyint_correct 53 1024 _ mode_UP (B754_finite s m e Hb)) as (A & B & _).
    rewrite (btrunc_val _ eq_refl). rewrite A, round_FIX0, Hr. cbn [round_mode]. rewrite Ztrunc_IZR. lia.
Qed.

Lemma quot_rounded_close (len d : Z) : (1 <= len < 2 ^ 53)%Z -> (1 <= d < 2 ^ 53)%Z ->
  exists r, brnd 53 1024 (IZR len / IZR d) = XFin r /\ Rabs (r - IZR len / IZR d) < / IZR d /\ 0 <= r <= IZR len.
Proof.
  intros [Hl0 Hl] [Hd0 Hd].
  assert (1 <= IZR len) as L0 by (apply IZR_le; lia). assert (IZR len < IZR (2^53)) as L1 by (apply IZR_lt; lia).
  assert (1 <= IZR d) as D0 by (apply IZR_le; lia). assert (IZR d < IZR (2^53)) as D1 by (apply IZR_lt; lia).
  assert (0 < / IZR d) as Di by (apply Rinv_0_lt_compat; lra).
  set (x := IZR len / IZR d).
  assert (0 < x) as X0 by (unfold x; apply Rdiv_lt_0_compat; lra).
  assert (x <= IZR len) as X1.
  { unfold x, Rdiv. rewrite <- (Rmult_1_r (IZR len)) at 2. apply Rmult_le_compat_l; [lra|].
    rewrite <- Rinv_1. apply Rinv_le; lra. }
  destruct (@frnd_range f64 _ _ 0 (IZR len) x) as (r & Hr & Hr1).
  { apply fexact_0. } { apply (fint_exact len). cbn [fint f64_laws ieee_laws]. lia. } { lra. }
  exists r. split; [exact Hr|]. split; [|lra].
  cbn [frnd f64_laws ieee_laws] in Hr. unfold brnd in Hr.
  destruct (Rlt_bool _ _) in Hr; [|discriminate]. injection Hr as <-.
  eapply Rle_lt_trans.
  - apply (relative_error_N_FLT radix2 (3 - 1024 - 53) 53 eq_refl (fun z => negb (Z.even z))).
    rewrite Rabs_pos_eq by lra.
    apply Rle_trans with (/ IZR (2 ^ 53)).
    + change (/ IZR (2^53)) with (bpow radix2 (-53)). apply bpow_le. cbn; lia.
    + unfold x. apply Rle_trans with (1 * / IZR d).
      * rewrite Rmult_1_l. apply Rinv_le; lra.
      * unfold Rdiv. apply Rmult_le_compat_r; lra.
  - rewrite (Rabs_pos_eq x) by lra. unfold x, Rdiv.
    replace (/ 2 * bpow radix2 (- (53) + 1)) with (/ IZR (2 ^ 53)).
    2:{ cbn. lra. }
    rewrite <- Rmult_assoc. rewrite <- (Rmult_1_l (/ IZR d)) at 2.
    apply Rmult_lt_compat_r; [exact Di|].
    apply Rmult_lt_reg_l with (IZR (2^53)); [lra|].
    replace (IZR (2^53) * (/ IZR (2^53) * IZR len)) with (IZR len) by (field; apply not_0_IZR; discriminate). lra.
Qed.

Lemma Zceil_quot (len d : Z) : (1 <= d)%Z -> Zceil (IZR len / IZR d) = ((len + (d - 1)) / d)%Z.
Proof.
  intros Hd. apply Zceil_imp.
  assert (1 <= IZR d) as D0 by (apply IZR_le; lia).
  pose proof (Z.div_mod (len + (d-1)) d ltac:(lia)) as E. pose proof (Z.mod_pos_bound (len + (d-1)) d ltac:(lia)) as B.
  set (c := ((len + (d - 1)) / d)%Z) in *.
  assert (IZR len = IZR (d * c + (len + (d-1)) mod d - (d - 1))) as -> by (f_equal; lia).
  split.
  - apply Rmult_lt_reg_r with (IZR d); [lra|]. unfold Rdiv. rewrite Rmult_assoc, Rinv_l, Rmult_1_r by lra.
    rewrite <- mult_IZR. apply IZR_lt. nia.
  - apply Rmult_le_reg_r with (IZR d); [lra|]. unfold Rdiv. rewrite Rmult_assoc, Rinv_l, Rmult_1_r by lra.
    rewrite <- mult_IZR. apply IZR_le. nia.
Qed.

Lemma Zceil_quot_rounded (len d : Z) r : (1 <= len < 2 ^ 53)%Z -> (1 <= d < 2 ^ 53)%Z ->
  brnd 53 1024 (IZR len / IZR d) = XFin r -> Zceil r = ((len + (d - 1)) / d)%Z.
Proof.
  intros Hl Hd Hr. destruct (quot_rounded_close Hl Hd) as (r' & Hr' & Hclose & Hrng).
  rewrite Hr in Hr'. injection Hr' as <-. apply Rabs_def2 in Hclose as [C1 C2].
  assert (1 <= IZR d) as D0 by (apply IZR_le; lia).
  pose proof (Z.div_mod (len + (d-1)) d ltac:(lia)) as E. pose proof (Z.mod_pos_bound (len + (d-1)) d ltac:(lia)) as B.
  set (c := ((len + (d - 1)) / d)%Z) in *.
  apply Zceil_imp. split.
  - (* c - 1 < r because len/d >= c - 1 + 1/d *)
    assert (IZR (c - 1) + / IZR d <= IZR len / IZR d); [|lra].
    apply Rmult_le_reg_r with (IZR d); [lra|]. rewrite Rmult_plus_distr_r. unfold Rdiv.
    rewrite Rmult_assoc, Rinv_l, Rmult_1_r by lra. rewrite <- mult_IZR, <- plus_IZR. apply IZR_le. nia.
  - (* r <= c because len/d <= c, c exact *)
    assert (IZR len / IZR d <= IZR c) as Hle.
    { apply Rmult_le_reg_r with (IZR d); [lra|]. unfold Rdiv. rewrite Rmult_assoc, Rinv_l, Rmult_1_r by lra.
      rewrite <- mult_IZR. apply IZR_le. nia. }
    assert (c <= len)%Z as Hc by (apply Z.div_le_upper_bound; nia).
    assert (0 <= c)%Z as Hc0 by (apply Z.div_pos; lia).
    pose proof (@frnd_mono f64 _ _ _ _ Hle) as Hm. cbn [frnd f64_laws ieee_laws] in Hm. rewrite Hr in Hm.
    rewrite (brnd_exact (r := IZR c)) in Hm.
    + now apply xle_fin.
    + apply bexact_int; [typeclasses eauto|lia].
Qed.

Theorem par_chunk_size_spec (len d : nat) :
  (1 <= len)%nat -> (1 <= d)%nat -> (Z.of_nat len < 2 ^ 53)%Z -> (Z.of_nat d < 2 ^ 53)%Z ->
  par_chunk_size len d = ((len + (d - 1)) / d)%nat.
Proof.
  intros H1 H2 H3 H4. unfold par_chunk_size.
  assert (fval (fdiv (fofZ (Z.of_nat len)) (fofZ (Z.of_nat d)) : f64) = @frnd f64 _ f64_laws (IZR (Z.of_nat len) / IZR (Z.of_nat d))) as Hv.
  { apply fdiv_fin.
    - apply (@fval_int f64 _ _). cbn [fint f64_laws ieee_laws]. lia.
    - apply (@fval_int f64 _ _). cbn [fint f64_laws ieee_laws]. lia.
    - apply not_0_IZR. lia. }
  destruct (@quot_rounded_close (Z.of_nat len) (Z.of_nat d)) as (r & Hr & _ & Hrng); try lia.
  change (@frnd f64 _ f64_laws (IZR (Z.of_nat len) / IZR (Z.of_nat d))) with (brnd 53 1024 (IZR (Z.of_nat len) / IZR (Z.of_nat d))) in Hv.
  rewrite Hr in Hv.
  assert (IZR (Z.of_nat len) <= IZR (2^53)) by (apply IZR_le; lia).
  rewrite (ceil_usize_fin _ Hv) by lra.
  rewrite (@Zceil_quot_rounded (Z.of_nat len) (Z.of_nat d) r) by (auto; lia).
  replace ((Z.of_nat len + (Z.of_nat d - 1)) / Z.of_nat d)%Z with (Z.of_nat ((len + (d - 1)) / d)).
  2:{ rewrite Nat2Z.inj_div. f_equal. lia. }
  assert (1 <= (len + (d - 1)) / d)%nat by (apply Nat.div_le_lower_bound; lia).
  assert ((len + (d - 1)) / d <= len)%nat by (apply Nat.div_le_upper_bound; nia).
  lia.
Qed.

(** hence at most [d] chunks *)
Lemma chunk_count_le (len d : nat) : (1 <= len)%nat -> (1 <= d)%nat ->
  ((len + ((len + (d - 1)) / d - 1)) / ((len + (d - 1)) / d) <= d)%nat.
Proof.
  intros Hl Hd. set (c := ((len + (d - 1)) / d)%nat).
  assert (1 <= c)%nat as Hc by (apply Nat.div_le_lower_bound; lia).
  assert (len <= c * d)%nat as Hcd.
  { pose proof (Nat.div_mod (len + (d - 1)) d ltac:(lia)) as E. fold c in E.
    pose proof (Nat.mod_upper_bound (len + (d - 1)) d ltac:(lia)). nia. }
  apply Nat.lt_succ_r. apply Nat.div_lt_upper_bound; nia.
Qed.

(** exactly [d] chunks when [d] divides the length *)
Lemma chunk_count_div (m d : nat) : (1 <= m)%nat -> (1 <= d)%nat ->
  ((m * d + ((m * d + (d - 1)) / d - 1)) / ((m * d + (d - 1)) / d) = d)%nat.
Proof.
  intros Hm Hd.
  assert ((m * d + (d - 1)) / d = m)%nat as ->.
  { rewrite Nat.add_comm, Nat.div_add by lia. rewrite Nat.div_small by lia. lia. }
  replace (m * d + (m - 1))%nat with ((m - 1) + d * m)%nat by lia.
  rewrite Nat.div_add by lia. rewrite Nat.div_small by lia. lia.
Qed.
