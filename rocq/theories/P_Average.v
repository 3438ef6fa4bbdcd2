(** Property C87: averaging out the coin flips of independent digests; and the explicit variance of RCSketch2 (C58). *)
From Coq Require Import List Arith ZArith NArith Lia Bool Reals Lra.
From Verif Require Import Base Floats XReal IEEE Digest Spec FloatFacts History TDigest RCSketch RCProofs RCHist RCRank RCExpect RCTop RCQuery RCObs RCValue P_Parallel P_TDigest P_RC.
From Verif Require Import RC2 RC2Sections RC2Proofs RC2Hist RC2Rank RC2Top RC2Value RC2Var P_RC2.
From Verif Require Import TDigestAcc TDigestAcc2 TDigestDrift Accurate AccurateTop AccurateRC AccurateRC2 P_RCSym Average AverageRC.
Set Implicit Arguments.
Set Universe Polymorphism.
Unset Universe Minimization ToSet.
Local Open Scope R_scope.

(* ------------------------------------------------------------------ *)
(** * C58: the expected weighted number of compactions of C58_variance, in terms of the parameters *)
(** With min_sec k the least section size, o odd with o <= min_sec k + 1, and h such that N ((o+1)/2o)^h < 6k:
    var2 k o h N = (rho^(h+1) - 1)/(rho - 1) N / min_sec k, rho = 2 (1 + 1/o) *)
Theorem C58_explicit : forall F (FO : FloatOps F) (FL : FloatLaws F) extra k (ops : list (rop F)) v o h,
  proper2 k ops -> few2 k ops -> default_mode ops -> no_nan (ritems_of ops) -> Nat.odd o = true -> (o <= min_sec k + 1)%nat ->
  ((o + 1) ^ h * length (ritems_of ops) < 6 * N.to_nat k * (2 * o) ^ h)%nat ->
  let rho := 2 * (1 + / INR o) in
  expect (fun z => (IZR z - INR (n_le (ritems_of ops) v)) ^ 2) (rank_after2 extra k ops v)
  <= (rho ^ (h + 1) - 1) / (rho - 1) * INR (length (ritems_of ops)) / INR (min_sec k).
Proof. exact @rank2_variance_explicit. Qed.
Print Assumptions C58_explicit.
(** 300 items, k = 8, o = 3: h = 5 *)
Example C58_explicit_nonvacuous : proper2 8 ops300 /\ few2 8 ops300 /\ Nat.odd 3 = true /\ (3 <= min_sec 8 + 1)%nat /\
  ((3 + 1) ^ 5 * length (ritems_of ops300) < 6 * N.to_nat 8 * (2 * 3) ^ 5)%nat.
Proof.
  destruct ops300_proper as (H1 & H2 & _). split; [exact H1|]. split; [exact H2|]. split; [reflexivity|].
  split; [apply Nat.leb_le; vm_compute; reflexivity|apply Nat.ltb_lt; vm_compute; reflexivity].
Qed.

(* ------------------------------------------------------------------ *)
(** * C87 *)
(** [unbiased D s0 lim a]: after every history of finite items (at most lim, no query before the first item), the digest does not
    panic, its quantile estimates are finite, and over the coin flips the estimate at v has expectation [upto v rs / size rs], the
    fraction of the items <= v, and a mean square error of at most [a rs v]. *)
Theorem C87_rc : forall (lg : xr -> xr) n k bs s0, (1 <= k <= n)%nat -> lg (XFin (INR (n / k))) = XFin (INR (Nat.log2_up (n / k))) ->
  (Z.of_nat (2 * k * Nat.log2_up (n / k)) < 2 ^ 64)%Z -> (N.of_nat (n / k) <= u32_max)%N -> Nat.even k = true ->
  calc_buffer_size lg n k = Ret bs -> rc_new lg n k = Ret s0 ->
  unbiased rc_digest s0 (Z.of_nat n) (fun _ _ => 2 / (INR k * INR bs)) /\
  forall h, (n * (k + 1) ^ S h <= bs / 2 * (2 * k) ^ S h)%nat ->
    unbiased rc_digest s0 (Z.of_nat n) (fun rs v => 2 * (1 + / INR k) ^ h / (INR k * INR (bs / 2)) * (upto v rs / size rs) ^ 2).
Proof. exact rc_estimates. Qed.
Print Assumptions C87_rc.
Theorem C87_rc2 : forall extra k n o h, k_ok k -> fewer k n -> (N.of_nat n <= N.of_nat (min_sec k) * u32_max)%N -> Nat.odd o = true -> (o <= min_sec k + 1)%nat ->
  ((o + 1) ^ h * n < 6 * N.to_nat k * (2 * o) ^ h)%nat ->
  unbiased (rc2_digest extra) (rc2_new k) (Z.of_nat n) (fun rs _ => var2 k o h (length rs) / size rs ^ 2).
Proof. exact rc2_estimates. Qed.
Print Assumptions C87_rc2.

(** MultiDigest: unbiased, and the mean square error of the mean of independent estimates *)
Theorem C87_multi : forall lim (ds : list (boxed xr)) (es : list (list R -> R -> R)), ds <> [] ->
  Forall2 (fun b e => unbiased (bx_impl b) (bx_state b) lim e) ds es ->
  unbiased (multi_digest xr) ds lim (fun rs v => sumR (map (fun e => e rs v) es) / INR (length ds) ^ 2).
Proof. exact multi_unbiased. Qed.
Print Assumptions C87_multi.
Theorem C87_copies : forall (D : digest xr) s0 lim a m, (1 <= m)%nat -> unbiased D s0 lim a ->
  unbiased (multi_digest xr) (repeat (@Box xr D s0) m) lim (fun rs v => a rs v / INR m).
Proof. exact multi_copies. Qed.
Print Assumptions C87_copies.
(** Chebyshev *)
Theorem C87_tail : forall (D : digest xr) s0 lim a ops rs v t, unbiased D s0 lim a -> fine ops -> items_of ops = map XFin rs -> rs <> [] ->
  (Z.of_nat (length rs) <= lim)%Z -> 0 < t ->
  prob (fun r => if Rle_dec t (Rabs (last_answer r - upto v rs / size rs)) then true else false) (exec D s0 (ops ++ [Quant (XFin v)])) <= a rs v / t ^ 2.
Proof. exact unbiased_tail. Qed.
Print Assumptions C87_tail.

(** 20 items in an RCSketch with k = 2 (f64): at 15 the estimate is 14/20 or 16/20; the mean of two is 14/20, 15/20, 15/20 or 16/20,
    half the mean square error *)
Definition ops20 : list (op f64) := [AddBuf (map w64 [20; 19; 18; 17; 16; 15; 14; 13; 12; 11; 10; 9; 8; 7; 6; 5; 4; 3; 2; 1]%Z)].
Definition one_rc (v : Z) (coins : list bool) : list f64 :=
  match run (do r <- rc_new lg64 24 2; exec rc_digest r (ops20 ++ [Quant (w64 v)])) coins with Returned (_, l) => l | _ => [] end.
Definition two_rc (v : Z) (coins : list bool) : list f64 :=
  match run (do r <- rc_new lg64 24 2; exec (multi_digest f64) [@Box f64 rc_digest r; @Box f64 rc_digest r] (ops20 ++ [Quant (w64 v)])) coins with Returned (_, l) => l | _ => [] end.
Definition twentieths (l : list f64) := map (fun x => find (fun i => feq x (frat (Z.of_nat i) 20)) (seq 0 21)) l.
Example C87_nonvacuous :
  map (fun c => twentieths (one_rc 15 c)) [[true; true]; [true; false]; [false; true]; [false; false]] = [[Some 14]; [Some 16]; [Some 14]; [Some 16]]%nat /\
  map (fun c => twentieths (two_rc 15 c)) all_coins =
    map (fun i => [Some i]) [14; 15; 14; 15; 15; 16; 15; 16; 14; 15; 14; 15; 15; 16; 15; 16]%nat.
Proof. split; vm_compute; reflexivity. Qed.
(** ten RCSketches with k = 4 for 64 items: bs = 32, mean square error at most 1/640 *)
Example C87_ten : exists s0, rc_new lgx 64 4 = Ret s0 /\
  unbiased (multi_digest xr) (repeat (@Box xr rc_digest s0) 10) 64 (fun _ _ => 1 / 640).
Proof.
  assert (1 <= 4 <= 64)%nat as H1 by lia.
  assert (lgx (XFin (INR (64 / 4))) = XFin (INR (Nat.log2_up (64 / 4)))) as H2 by (change (XFin 4 = XFin (INR 4)); f_equal; cbn; lra).
  destruct (@rc_starts lgx 64 4 H1 H2 eq_refl) as [E (s0 & E0)]. exists s0. split; [exact E0|].
  destruct (@C87_rc lgx 64 4 (spec_size 64 4) s0 H1 H2 eq_refl ltac:(discriminate) eq_refl E E0) as [U _].
  assert (1 <= 10)%nat as H10 by lia. refine (@unbiased_weaken _ _ _ _ _ _ (@C87_copies _ _ _ _ 10 H10 U)).
  intros _ _. change (spec_size 64 4) with 32%nat. replace (INR 32) with 32 by (cbn; lra). replace (INR 4) with 4 by (cbn; lra).
  replace (INR 10) with 10 by (cbn; lra). lra.
Qed.
