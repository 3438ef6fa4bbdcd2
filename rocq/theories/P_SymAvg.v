(** Property C95: SymDigest over randomised sketches: mean square error, and relative accuracy at both ends. *)
From Coq Require Import List Arith ZArith NArith Lia Bool Reals Lra.
From Verif Require Import Base Floats XReal IEEE Digest Spec FloatFacts History TDigest RCSketch RCProofs RCHist RCRank RCExpect RCTop RCQuery RCObs RCValue P_Parallel P_TDigest P_RC.
From Verif Require Import TDigestAcc TDigestAcc2 TDigestDrift Accurate AccuratePar AccurateTop AccurateRC AccurateRC2 P_RCSym Average AverageRC P_Average SymAverage.
Set Implicit Arguments.
Set Universe Polymorphism.
Unset Universe Minimization ToSet.
Local Open Scope R_scope.

(** Exact arithmetic; q0 and q1 are the fractions of the items < v and <= v; [off q0 q1 x] is the distance of x from [q0, q1].
    The answer of a SymDigest of two unbiased digests (C87) after any insertions: its mean square error is at most the sum of theirs. *)
Theorem C95_mse : forall (D : digest xr) (l0 h0 : dst D) lim aL aH, unbiased D l0 lim aL -> unbiased D h0 lim aH -> forall ops rs v,
  fine ops -> items_of ops = map XFin rs -> rs <> [] -> (Z.of_nat (length rs) <= lim)%Z ->
  expect (fun r => off (below v rs / size rs) (upto v rs / size rs) (last_answer r) ^ 2) (exec (sym_digest D) (Sym D l0 h0) (ops ++ [Quant (XFin v)]))
  <= aL rs v + aH (map Ropp rs) (- v).
Proof. exact sym_mse. Qed.
Print Assumptions C95_mse.

(** Below the median the answer is as good as the low digest's, except with the probability that the two estimates together err by
    1 - q0 - q1 or more; *)
Theorem C95_low : forall (D : digest xr) (l0 h0 : dst D) lim aL aH, unbiased D l0 lim aL -> unbiased D h0 lim aH -> forall ops rs v,
  fine ops -> items_of ops = map XFin rs -> rs <> [] -> (Z.of_nat (length rs) <= lim)%Z -> forall t,
  below v rs / size rs + upto v rs / size rs < 1 -> 0 < t ->
  prob (fun r => if Rle_dec t (Rabs (last_answer r - upto v rs / size rs)) then true else false) (exec (sym_digest D) (Sym D l0 h0) (ops ++ [Quant (XFin v)]))
  <= aL rs v / t ^ 2 + (aL rs v + aH (map Ropp rs) (- v)) / (1 - below v rs / size rs - upto v rs / size rs) ^ 2.
Proof. exact sym_low. Qed.
Print Assumptions C95_low.
(** above it, as good as the high digest's. *)
Theorem C95_high : forall (D : digest xr) (l0 h0 : dst D) lim aL aH, unbiased D l0 lim aL -> unbiased D h0 lim aH -> forall ops rs v,
  fine ops -> items_of ops = map XFin rs -> rs <> [] -> (Z.of_nat (length rs) <= lim)%Z -> forall t,
  1 < below v rs / size rs + upto v rs / size rs -> 0 < t ->
  prob (fun r => if Rle_dec t (Rabs (last_answer r - below v rs / size rs)) then true else false) (exec (sym_digest D) (Sym D l0 h0) (ops ++ [Quant (XFin v)]))
  <= aH (map Ropp rs) (- v) / t ^ 2 + (aL rs v + aH (map Ropp rs) (- v)) / (below v rs / size rs + upto v rs / size rs - 1) ^ 2.
Proof. exact sym_high. Qed.
Print Assumptions C95_high.

(** So a digest with an error relative to the rank becomes one with an error relative to the distance from the nearer end. *)
Theorem C95_relative : forall (D : digest xr) s0 lim b c ops rs v t,
  unbiased D s0 lim (fun _ _ => b) -> unbiased D s0 lim (fun rs v => c * (upto v rs / size rs) ^ 2) ->
  fine ops -> items_of ops = map XFin rs -> rs <> [] -> (Z.of_nat (length rs) <= lim)%Z -> 0 < t ->
  let q0 := below v rs / size rs in
  let q1 := upto v rs / size rs in
  let run := exec (sym_digest D) (Sym D s0 s0) (ops ++ [Quant (XFin v)]) in
  (0 < q1 -> q0 + q1 < 1 ->
    prob (fun r => if Rle_dec (t * q1) (Rabs (last_answer r - q1)) then true else false) run <= c / t ^ 2 + 2 * b / (1 - q0 - q1) ^ 2) /\
  (q0 < 1 -> 1 < q0 + q1 ->
    prob (fun r => if Rle_dec (t * (1 - q0)) (Rabs (last_answer r - q0)) then true else false) run <= c / t ^ 2 + 2 * b / (q0 + q1 - 1) ^ 2).
Proof. exact sym_relative. Qed.
Print Assumptions C95_relative.

(** log2 at the one argument it gets, 1024 / 16 *)
Definition lg6 (x : xr) : xr := XFin 6.
(** two RCSketches with k = 16 for 1024 items (bs = 192): for a value between the items with at most a quarter of them below, or above,
    the answer is wrong by half of that fraction or more with probability at most 1/80 *)
Example C95_rc1024 : exists s0, rc_new lg6 1024 16 = Ret s0 /\ forall ops rs v, fine ops -> items_of ops = map XFin rs -> rs <> [] -> (length rs <= 1024)%nat -> below v rs = upto v rs ->
  let q := upto v rs / size rs in
  let run := exec (sym_digest rc_digest) (Sym rc_digest s0 s0) (ops ++ [Quant (XFin v)]) in
  (0 < q <= 1 / 4 -> prob (fun r => if Rle_dec (1 / 2 * q) (Rabs (last_answer r - q)) then true else false) run <= 1 / 80) /\
  (3 / 4 <= q < 1 -> prob (fun r => if Rle_dec (1 / 2 * (1 - q)) (Rabs (last_answer r - q)) then true else false) run <= 1 / 80).
Proof.
  assert (1 <= 16 <= 1024)%nat as H1 by lia.
  assert (lg6 (XFin (INR (1024 / 16))) = XFin (INR (Nat.log2_up (1024 / 16)))) as H2 by (change (XFin 6 = XFin (INR 6)); f_equal; cbn; lra).
  destruct (@rc_starts lg6 1024 16 H1 H2 eq_refl) as [E (s0 & E0)]. exists s0. split; [exact E0|].
  destruct (@C87_rc lg6 1024 16 (spec_size 1024 16) s0 H1 H2 eq_refl ltac:(discriminate) eq_refl E E0) as [U V].
  assert (1024 * (16 + 1) ^ 4 <= spec_size 1024 16 / 2 * (2 * 16) ^ 4)%nat as H4.
  { change (spec_size 1024 16) with 192%nat. change (192 / 2)%nat with 96%nat. apply Nat2Z.inj_le. rewrite !Nat2Z.inj_mul, !Nat2Z.inj_pow. vm_compute. discriminate. }
  specialize (V 3%nat H4). change (spec_size 1024 16) with 192%nat in U, V. change (192 / 2)%nat with 96%nat in V.
  intros ops rs v Hf Hi Hne Hl Hb q run.
  assert (Z.of_nat (length rs) <= Z.of_nat 1024)%Z as Hl' by lia.
  destruct (@C95_relative rc_digest s0 _ _ _ _ rs v (1 / 2) U V Hf Hi Hne Hl' ltac:(lra)) as [A B]. rewrite Hb in A, B. fold q in A, B.
  assert (0 < INR 96 /\ INR 16 = 16 /\ INR 96 = 96 /\ INR 192 = 192) as (_ & E1 & E2 & E3) by (rewrite !INR_IZR_INZ; cbn [Z.of_nat]; repeat split; try lra; cbn; lra).
  rewrite E1, E2, E3 in A, B.
  assert (forall d, 1 / 2 <= d -> 2 * (1 + / 16) ^ 3 / (16 * 96) / (1 / 2) ^ 2 + 2 * (2 / (16 * 192)) / d ^ 2 <= 1 / 80) as HB.
  { intros d Hd. assert (/ d ^ 2 <= 4) as H5.
    { replace 4 with (/ (1 / 2) ^ 2) by field. apply Rinv_le_contravar; [lra|]. apply pow_incr. lra. }
    unfold Rdiv. assert (0 < / d ^ 2) by (apply Rinv_0_lt_compat, pow_lt; lra). lra. }
  split; intros Hq.
  - eapply Rle_trans; [apply A; lra|]. apply HB. lra.
  - eapply Rle_trans; [apply B; lra|]. apply HB. lra.
Qed.
