(** Property C96: exponential tail bounds through BufferedDigest, SymDigest and ParallelDigest. *)
From Coq Require Import List Arith ZArith NArith Lia Bool Permutation Reals Lra.
From Verif Require Import Base Floats XReal IEEE Digest Spec FloatFacts History TDigest RCSketch RCProofs RCHist RCRank RCExpect RCTop RCQuery RCObs RCValue P_Parallel P_TDigest P_RC.
From Verif Require Import TDigestAcc TDigestAcc2 TDigestDrift Accurate AccuratePar AccurateTop AccurateRC AccurateRC2 P_RCSym RCExp RCTail Average AverageRC SubGauss P_Average P_Tail UnbiasedWrap SymAverage WrapTail P_SymAvg.
Set Implicit Arguments.
Set Universe Polymorphism.
Unset Universe Minimization ToSet.
Local Open Scope R_scope.

(** [concentrated D s0 lim a]: see C89 (the error is sub-Gaussian over the coin flips with variance proxy a); [unbiased]: C87; [counted]: C81.
    Exact arithmetic.  Buffering changes nothing. *)
Theorem C96_buffered : forall (D : digest xr) (d : dst D) (c : nat) lim a, (1 <= c)%nat -> concentrated D d lim a ->
  concentrated (buffered_digest D) (buffered_new D d c) lim a.
Proof. exact buffered_concentrated. Qed.
Print Assumptions C96_buffered.

(** ParallelDigest: whatever the schedule, the variance proxy is that of the members weighted with the squares of their shares; *)
Theorem C96_parallel : forall (D : digest xr) lim a (ds0 : list (dst D)), (lim < 2 ^ 53)%Z -> ds0 <> [] -> (Z.of_nat (length ds0) < 2 ^ 53)%Z ->
  Forall (fun d => unbiased D d lim a /\ counted D d lim) ds0 -> forall c sched ops rs v, Forall (fun d => concentrated D d lim c) ds0 ->
  filled (length ds0) ops -> fine ops -> Forall (fun o => forall q, o <> Val q) ops -> items_of ops = map XFin rs -> (Z.of_nat (length rs) <= lim)%Z ->
  exists parts, length parts = length ds0 /\ Permutation rs (concat parts) /\ Forall (fun l => l <> []) parts /\
    (Forall (fun o => (exists v, o = Quant v) \/ exists l j, o = AddBuf l /\ length l = (j * length ds0)%nat) ops -> exists n, Forall (fun l => length l = n) parts) /\
    forall l, expect (fun r => exp (l * (last_answer r - upto v rs / size rs))) (exec (parallel_digest D) (parallel_new D sched ds0) (ops ++ [Quant (XFin v)])) <=
      exp (l ^ 2 / 2 * sumR (map (fun l => (size l / size rs) ^ 2 * c l v) parts)).
Proof. exact parallel_exp. Qed.
Print Assumptions C96_parallel.
(** so large errors are exponentially unlikely, m times smaller in the exponent when the items spread evenly over m members. *)
Theorem C96_parallel_tail : forall (D : digest xr) lim a c (ds0 : list (dst D)) b sched ops rs v t, (lim < 2 ^ 53)%Z -> ds0 <> [] -> (Z.of_nat (length ds0) < 2 ^ 53)%Z ->
  Forall (fun d => unbiased D d lim a /\ counted D d lim) ds0 -> Forall (fun d => concentrated D d lim c) ds0 -> (forall l, c l v <= b) -> 0 < b -> 0 < t ->
  filled (length ds0) ops -> fine ops -> Forall (fun o => forall q, o <> Val q) ops -> items_of ops = map XFin rs -> (Z.of_nat (length rs) <= lim)%Z ->
  let wrong := prob (fun r => if Rle_dec t (Rabs (last_answer r - upto v rs / size rs)) then true else false) (exec (parallel_digest D) (parallel_new D sched ds0) (ops ++ [Quant (XFin v)])) in
  wrong <= 2 * exp (- (t ^ 2 / (2 * b))) /\
  (Forall (fun o => (exists v, o = Quant v) \/ exists l j, o = AddBuf l /\ length l = (j * length ds0)%nat) ops -> wrong <= 2 * exp (- (INR (length ds0) * t ^ 2 / (2 * b)))).
Proof. exact parallel_tail. Qed.
Print Assumptions C96_parallel_tail.

(** SymDigest, below the median: as unlikely as for the low digest, plus the probability exp (- (1 - q0 - q1)^2 / 2 (bL + bH)) of using
    the wrong side; *)
Theorem C96_low : forall (D : digest xr) (l0 h0 : dst D) lim uL uH aL bL bH, unbiased D l0 lim uL -> unbiased D h0 lim uH ->
  concentrated D l0 lim aL -> concentrated D l0 lim bL -> concentrated D h0 lim bH -> forall ops rs v,
  fine ops -> items_of ops = map XFin rs -> rs <> [] -> (Z.of_nat (length rs) <= lim)%Z -> forall t,
  0 < aL rs v -> 0 < bL rs v + bH (map Ropp rs) (- v) -> below v rs / size rs + upto v rs / size rs < 1 -> 0 < t ->
  prob (fun r => if Rle_dec t (Rabs (last_answer r - upto v rs / size rs)) then true else false) (exec (sym_digest D) (Sym D l0 h0) (ops ++ [Quant (XFin v)]))
  <= 2 * exp (- (t ^ 2 / (2 * aL rs v))) + exp (- ((1 - below v rs / size rs - upto v rs / size rs) ^ 2 / (2 * (bL rs v + bH (map Ropp rs) (- v))))).
Proof. exact sym_low_exp. Qed.
Print Assumptions C96_low.
(** above it, as for the high digest. *)
Theorem C96_high : forall (D : digest xr) (l0 h0 : dst D) lim uL uH aH bL bH, unbiased D l0 lim uL -> unbiased D h0 lim uH ->
  concentrated D l0 lim bL -> concentrated D h0 lim aH -> concentrated D h0 lim bH -> forall ops rs v,
  fine ops -> items_of ops = map XFin rs -> rs <> [] -> (Z.of_nat (length rs) <= lim)%Z -> forall t,
  0 < aH (map Ropp rs) (- v) -> 0 < bL rs v + bH (map Ropp rs) (- v) -> 1 < below v rs / size rs + upto v rs / size rs -> 0 < t ->
  prob (fun r => if Rle_dec t (Rabs (last_answer r - below v rs / size rs)) then true else false) (exec (sym_digest D) (Sym D l0 h0) (ops ++ [Quant (XFin v)]))
  <= 2 * exp (- (t ^ 2 / (2 * aH (map Ropp rs) (- v)))) + exp (- ((below v rs / size rs + upto v rs / size rs - 1) ^ 2 / (2 * (bL rs v + bH (map Ropp rs) (- v))))).
Proof. exact sym_high_exp. Qed.
Print Assumptions C96_high.
(** Relative to the distance from the nearer end *)
Theorem C96_relative : forall (D : digest xr) s0 lim u b c ops rs v t,
  unbiased D s0 lim u -> concentrated D s0 lim (fun _ _ => b) -> concentrated D s0 lim (fun rs v => c * (upto v rs / size rs) ^ 2) -> 0 < b -> 0 < c ->
  fine ops -> items_of ops = map XFin rs -> rs <> [] -> (Z.of_nat (length rs) <= lim)%Z -> 0 < t ->
  let q0 := below v rs / size rs in
  let q1 := upto v rs / size rs in
  let run := exec (sym_digest D) (Sym D s0 s0) (ops ++ [Quant (XFin v)]) in
  (0 < q1 -> q0 + q1 < 1 ->
    prob (fun r => if Rle_dec (t * q1) (Rabs (last_answer r - q1)) then true else false) run <= 2 * exp (- (t ^ 2 / (2 * c))) + exp (- ((1 - q0 - q1) ^ 2 / (4 * b)))) /\
  (q0 < 1 -> 1 < q0 + q1 ->
    prob (fun r => if Rle_dec (t * (1 - q0)) (Rabs (last_answer r - q0)) then true else false) run <= 2 * exp (- (t ^ 2 / (2 * c))) + exp (- ((q0 + q1 - 1) ^ 2 / (4 * b)))).
Proof. exact sym_relative_exp. Qed.
Print Assumptions C96_relative.

(** the sketches of C95_rc1024: the 1/80 becomes 3 exp (-64) *)
Example C96_rc1024 : exists s0, rc_new lg6 1024 16 = Ret s0 /\ forall ops rs v, fine ops -> items_of ops = map XFin rs -> rs <> [] -> (length rs <= 1024)%nat -> below v rs = upto v rs ->
  let q := upto v rs / size rs in
  let run := exec (sym_digest rc_digest) (Sym rc_digest s0 s0) (ops ++ [Quant (XFin v)]) in
  (0 < q <= 1 / 4 -> prob (fun r => if Rle_dec (1 / 2 * q) (Rabs (last_answer r - q)) then true else false) run <= 3 * exp (- (64))) /\
  (3 / 4 <= q < 1 -> prob (fun r => if Rle_dec (1 / 2 * (1 - q)) (Rabs (last_answer r - q)) then true else false) run <= 3 * exp (- (64))).
Proof.
  assert (1 <= 16 <= 1024)%nat as H1 by lia.
  assert (lg6 (XFin (INR (1024 / 16))) = XFin (INR (Nat.log2_up (1024 / 16)))) as H2 by (change (XFin 6 = XFin (INR 6)); f_equal; cbn; lra).
  destruct (@rc_starts lg6 1024 16 H1 H2 eq_refl) as [E (s0 & E0)]. exists s0. split; [exact E0|].
  destruct (@C87_rc lg6 1024 16 (spec_size 1024 16) s0 H1 H2 eq_refl ltac:(discriminate) eq_refl E E0) as [U _].
  destruct (@C89_rc lg6 1024 16 (spec_size 1024 16) s0 H1 H2 eq_refl ltac:(discriminate) eq_refl E E0) as [C V].
  assert (1024 * (16 + 1) ^ 4 <= spec_size 1024 16 / 2 * (2 * 16) ^ 4)%nat as H4.
  { change (spec_size 1024 16) with 192%nat. change (192 / 2)%nat with 96%nat. apply Nat2Z.inj_le. rewrite !Nat2Z.inj_mul, !Nat2Z.inj_pow. vm_compute. discriminate. }
  specialize (V 3%nat H4). change (spec_size 1024 16) with 192%nat in U, C, V. change (192 / 2)%nat with 96%nat in V. change (2 * 3)%nat with 6%nat in V.
  assert (INR 16 = 16 /\ INR 96 = 96 /\ INR 192 = 192) as (E1 & E2 & E3) by (rewrite !INR_IZR_INZ; cbn [Z.of_nat]; repeat split; cbn; lra).
  assert (concentrated rc_digest s0 (Z.of_nat 1024) (fun _ _ => 1 / 1536)) as C'.
  { refine (@concentrated_weaken _ _ _ _ _ _ C). intros _ _. rewrite E1, E3. lra. }
  assert (concentrated rc_digest s0 (Z.of_nat 1024) (fun rs v => 1 / 520 * (upto v rs / size rs) ^ 2)) as V'.
  { refine (@concentrated_weaken _ _ _ _ _ _ V). intros rs v. rewrite E1, E2. apply Rmult_le_compat_r; [apply pow2_ge_0|lra]. }
  intros ops rs v Hf Hi Hne Hl Hb q run.
  assert (Z.of_nat (length rs) <= Z.of_nat 1024)%Z as Hl' by lia.
  destruct (@C96_relative rc_digest s0 _ _ _ _ _ rs v (1 / 2) U C' V' ltac:(lra) ltac:(lra) Hf Hi Hne Hl' ltac:(lra)) as [A B]. rewrite Hb in A, B. fold q in A, B.
  assert (forall d, 1 / 2 <= d -> 2 * exp (- ((1 / 2) ^ 2 / (2 * (1 / 520)))) + exp (- (d ^ 2 / (4 * (1 / 1536)))) <= 3 * exp (- (64))) as HB.
  { intros d Hd. assert (exp (- ((1 / 2) ^ 2 / (2 * (1 / 520)))) <= exp (- (64))) as A1 by (apply exp_mono; lra).
    assert (exp (- (d ^ 2 / (4 * (1 / 1536)))) <= exp (- (64))) as A2 by (apply exp_mono; assert (1 / 4 <= d ^ 2) by nra; lra). lra. }
  split; intros Hq.
  - eapply Rle_trans; [apply A; lra|]. apply HB. lra.
  - eapply Rle_trans; [apply B; lra|]. apply HB. lra.
Qed.
