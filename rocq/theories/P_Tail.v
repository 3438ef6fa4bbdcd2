(** Property C89: large errors of the RC sketches are exponentially unlikely. *)
From Coq Require Import List Arith ZArith NArith Lia Bool Reals Lra.
From Verif Require Import Base Floats XReal IEEE Digest Spec FloatFacts History TDigest RCSketch RCProofs RCHist RCRank RCExpect RCTop RCQuery RCObs RCRel RCRelTop RCValue P_Parallel P_TDigest P_RC.
From Verif Require Import RC2 RC2Sections RC2Proofs RC2Hist RC2Rank RC2Top RC2Value RC2Var P_RC2.
From Verif Require Import TDigestAcc TDigestAcc2 TDigestDrift Accurate AccurateTop AccurateRC AccurateRC2 P_RCSym Average AverageRC.
From Verif Require Import RCExp RCExpTop RCTail SubGauss P_Average.
Set Implicit Arguments.
Set Universe Polymorphism.
Unset Universe Minimization ToSet.
Local Open Scope R_scope.

(* ------------------------------------------------------------------ *)
(** * Ranks, any float type *)
(** [off items t z v]: the answer z differs from the number of items <= v by at least t *)
Theorem C89_rank : forall F (FO : FloatOps F) (FL : FloatLaws F) lg n k (ops : list (rop F)) v bs t,
  proper lg n k ops -> default_mode ops -> few_levels n k ops -> Nat.even k = true -> calc_buffer_size lg n k = Ret bs ->
  ritems_of ops <> [] -> (1 <= t)%nat ->
  prob (fun z => off (ritems_of ops) t z v) (rank_after lg n k ops v)
  <= 2 * exp (- (INR t ^ 2 * (INR k * INR bs) / (4 * INR (length (ritems_of ops)) ^ 2))).
Proof. exact @rank_chernoff. Qed.
Print Assumptions C89_rank.

(** any number of queries of the same sketch: the bound does not depend on it *)
Theorem C89_all : forall F (FO : FloatOps F) (FL : FloatLaws F) lg n k (ops : list (rop F)) vs bs t,
  proper lg n k ops -> default_mode ops -> few_levels n k ops -> Nat.even k = true -> calc_buffer_size lg n k = Ret bs -> (1 <= t)%nat ->
  prob (fun zs => existsb (fun p => off (ritems_of ops) t (fst p) (snd p)) (combine zs vs))
       (do s <- rc_run lg n k ops; mapM (fun v => interpolate_rank s v) vs)
  <= 2 * INR (length (ritems_of ops)) * exp (- (INR t ^ 2 * (INR k * INR bs) / (4 * INR (length (ritems_of ops)) ^ 2))).
Proof. exact @ranks_chernoff. Qed.
Print Assumptions C89_all.

(** relative to the rank; k may be odd *)
Theorem C89_relative : forall F (FO : FloatOps F) (FL : FloatLaws F) lg n k (ops : list (rop F)) v bs h t,
  proper lg n k ops -> default_mode ops -> few_levels n k ops -> calc_buffer_size lg n k = Ret bs ->
  (n_le (ritems_of ops) v * (k + 1) ^ S h <= bs / 2 * (2 * k) ^ S h)%nat -> (1 <= t)%nat -> (1 <= n_le (ritems_of ops) v)%nat ->
  prob (fun z => off (ritems_of ops) t z v) (rank_after lg n k ops v)
  <= 2 * exp (- (INR t ^ 2 * (INR k * INR (bs / 2)) / (4 * (1 + / INR k) ^ (2 * h) * INR (n_le (ritems_of ops) v) ^ 2))).
Proof. exact @rank_relative_chernoff. Qed.
Print Assumptions C89_relative.
Theorem C89_relative9 : forall F (FO : FloatOps F) (FL : FloatLaws F) lg n k (ops : list (rop F)) v bs t,
  proper lg n k ops -> default_mode ops -> few_levels n k ops -> calc_buffer_size lg n k = Ret bs ->
  (n_le (ritems_of ops) v * (k + 1) ^ S k <= bs / 2 * (2 * k) ^ S k)%nat -> (1 <= t)%nat -> (1 <= n_le (ritems_of ops) v)%nat ->
  prob (fun z => off (ritems_of ops) t z v) (rank_after lg n k ops v)
  <= 2 * exp (- (INR t ^ 2 * (INR k * INR (bs / 2)) / (36 * INR (n_le (ritems_of ops) v) ^ 2))).
Proof. exact @rank_relative_chernoff9. Qed.
Print Assumptions C89_relative9.

(** RCSketch2, with the variance of C58_explicit *)
Theorem C89_rank2 : forall F (FO : FloatOps F) (FL : FloatLaws F) extra k (ops : list (rop F)) v o h t,
  proper2 k ops -> few2 k ops -> default_mode ops -> no_nan (ritems_of ops) -> Nat.odd o = true -> (o <= min_sec k + 1)%nat ->
  ((o + 1) ^ h * length (ritems_of ops) < 6 * N.to_nat k * (2 * o) ^ h)%nat -> ritems_of ops <> [] -> (1 <= t)%nat ->
  prob (fun z => off (ritems_of ops) t z v) (rank_after2 extra k ops v) <= 2 * exp (- (INR t ^ 2 / (2 * var2 k o h (length (ritems_of ops))))).
Proof. exact @rank2_chernoff. Qed.
Print Assumptions C89_rank2.
Theorem C89_all2 : forall F (FO : FloatOps F) (FL : FloatLaws F) extra k (ops : list (rop F)) vs o h t,
  proper2 k ops -> few2 k ops -> default_mode ops -> no_nan (ritems_of ops) -> Nat.odd o = true -> (o <= min_sec k + 1)%nat ->
  ((o + 1) ^ h * length (ritems_of ops) < 6 * N.to_nat k * (2 * o) ^ h)%nat -> (1 <= t)%nat ->
  prob (fun zs => existsb (fun p => off (ritems_of ops) t (fst p) (snd p)) (combine zs vs))
       (do s <- rc2_run extra k ops; mapM (fun v => interpolate_rank2 s v) vs)
  <= 2 * INR (length (ritems_of ops)) * exp (- (INR t ^ 2 / (2 * var2 k o h (length (ritems_of ops))))).
Proof. exact @ranks2_chernoff. Qed.
Print Assumptions C89_all2.

(* ------------------------------------------------------------------ *)
(** * Quantiles, exact arithmetic, histories with queries *)
(** [concentrated D s0 lim a]: for every real l, the estimate X at v after a history of items rs (as in C87) satisfies
    E exp (l (X - upto v rs / size rs)) <= exp (l^2/2 a rs v) *)
Theorem C89_rc : forall (lg : xr -> xr) n k bs s0, (1 <= k <= n)%nat -> lg (XFin (INR (n / k))) = XFin (INR (Nat.log2_up (n / k))) ->
  (Z.of_nat (2 * k * Nat.log2_up (n / k)) < 2 ^ 64)%Z -> (N.of_nat (n / k) <= u32_max)%N -> Nat.even k = true ->
  calc_buffer_size lg n k = Ret bs -> rc_new lg n k = Ret s0 ->
  concentrated rc_digest s0 (Z.of_nat n) (fun _ _ => 2 / (INR k * INR bs)) /\
  forall h, (n * (k + 1) ^ S h <= bs / 2 * (2 * k) ^ S h)%nat ->
    concentrated rc_digest s0 (Z.of_nat n) (fun rs v => 2 * (1 + / INR k) ^ (2 * h) / (INR k * INR (bs / 2)) * (upto v rs / size rs) ^ 2).
Proof. exact rc_concentrates. Qed.
Print Assumptions C89_rc.
Theorem C89_rc2 : forall extra k n o h, k_ok k -> fewer k n -> (N.of_nat n <= N.of_nat (min_sec k) * u32_max)%N -> Nat.odd o = true -> (o <= min_sec k + 1)%nat ->
  ((o + 1) ^ h * n < 6 * N.to_nat k * (2 * o) ^ h)%nat ->
  concentrated (rc2_digest extra) (rc2_new k) (Z.of_nat n) (fun rs _ => var2 k o h (length rs) / size rs ^ 2).
Proof. exact rc2_concentrates. Qed.
Print Assumptions C89_rc2.
(** MultiDigest: the variance proxy of the mean of independent estimates *)
Theorem C89_multi : forall lim (ds : list (boxed xr)) (es us : list (list R -> R -> R)), ds <> [] ->
  Forall2 (fun b e => unbiased (bx_impl b) (bx_state b) lim e) ds us ->
  Forall2 (fun b e => concentrated (bx_impl b) (bx_state b) lim e) ds es ->
  concentrated (multi_digest xr) ds lim (fun rs v => sumR (map (fun e => e rs v) es) / INR (length ds) ^ 2).
Proof. exact multi_concentrated. Qed.
Print Assumptions C89_multi.
Theorem C89_copies : forall (D : digest xr) s0 lim a b m, (1 <= m)%nat -> unbiased D s0 lim b -> concentrated D s0 lim a ->
  concentrated (multi_digest xr) (repeat (@Box xr D s0) m) lim (fun rs v => a rs v / INR m).
Proof. exact concentrated_copies. Qed.
Print Assumptions C89_copies.
Theorem C89_tail : forall (D : digest xr) s0 lim a b ops rs v t, unbiased D s0 lim b -> concentrated D s0 lim a -> fine ops -> items_of ops = map XFin rs -> rs <> [] ->
  (Z.of_nat (length rs) <= lim)%Z -> 0 < a rs v -> 0 < t ->
  prob (fun r => if Rle_dec t (Rabs (last_answer r - upto v rs / size rs)) then true else false) (exec D s0 (ops ++ [Quant (XFin v)]))
  <= 2 * exp (- (t ^ 2 / (2 * a rs v))).
Proof. exact concentrated_tail. Qed.
Print Assumptions C89_tail.

(* ------------------------------------------------------------------ *)
(** * Examples *)

Lemma exp_pow2 (n : nat) x : INR n <= x -> exp (- x) <= / 2 ^ n.
Proof.
  intros H. assert (2 ^ n <= exp x) as E.
  { apply Rle_trans with (exp (INR n)); [|now apply exp_mono]. clear. induction n as [|n IH]; [change (INR 0) with 0; rewrite exp_0; cbn; lra|].
    rewrite S_INR, exp_plus. cbn [pow]. pose proof (exp_ineq1 1 ltac:(lra)) as H1. assert (0 < 2 ^ n) by (apply pow_lt; lra). nra. }
  rewrite exp_Ropp. apply Rinv_le_contravar; [apply pow_lt; lra|exact E].
Qed.
(** an RCSketch (f64) for 4096 items with k = 32, buffers of 448: however many ranks are queried, with probability 1 - 10^-6 all
    of them are off by less than a tenth of the number of items; and each is off by less than a quarter of itself with probability
    1 - 1/2000 (every history of at most 4096 numbers) *)
Definition history4096 (ops : list (rop f64)) := default_mode ops /\ (length (ritems_of ops) <= 4096)%nat /\ no_nan (ritems_of ops).
Lemma proper4096 ops : history4096 ops -> proper lg64 4096 32 ops /\ few_levels 4096 32 ops /\ calc_buffer_size lg64 4096 32 = Ret 448%nat.
Proof.
  intros (Hm & Hl & Hn). assert (N.of_nat (4096 / 32) <= u32_max)%N as Hu by (vm_compute; discriminate).
  split; [split; [|split; [right; split; [exact Hl|exact Hu]|exact Hn]]|split].
  - apply params64; [lia|apply Nat.leb_le; vm_compute; reflexivity|vm_compute; reflexivity|vm_compute; reflexivity|vm_compute; reflexivity].
  - right. split; [|split; [exact Hl|exact Hu]]. eapply Forall_impl; [|exact Hm]. intros o []. assumption.
  - vm_compute. reflexivity.
Qed.
Example C89_million : forall ops vs t, history4096 ops -> ritems_of ops <> [] -> (length (ritems_of ops) <= 10 * t)%nat ->
  prob (fun zs => existsb (fun p => off (ritems_of ops) t (fst p) (snd p)) (combine zs vs))
       (do s <- rc_run lg64 4096 32 ops; mapM (fun v => interpolate_rank s v) vs) <= / 1000000.
Proof.
  intros ops vs t H Hne Ht. destruct (proper4096 H) as (Hp & Hf & Hc). destruct H as (Hm & Hl & Hn).
  assert (1 <= length (ritems_of ops))%nat as H1 by (destruct (ritems_of ops); [congruence|cbn; lia]).
  assert (1 <= t)%nat as Ht1 by lia.
  eapply Rle_trans; [exact (@C89_all f64 f64_ops f64_laws lg64 4096 32 ops vs 448 t Hp Hm Hf eq_refl Hc Ht1)|].
  set (N := length (ritems_of ops)) in *. apply le_INR in Hl, Ht, H1. rewrite mult_INR in Ht.
  replace (INR 4096) with 4096 in Hl by (rewrite INR_IZR_INZ; reflexivity). replace (INR 10) with 10 in Ht by (rewrite INR_IZR_INZ; reflexivity). change (INR 1) with 1 in H1.
  replace (INR 32) with 32 by (rewrite INR_IZR_INZ; reflexivity). replace (INR 448) with 448 by (rewrite INR_IZR_INZ; reflexivity).
  apply Rle_trans with (8192 * / 2 ^ 35); [|lra].
  apply Rmult_le_compat; [lra|apply Rlt_le, exp_pos|lra|]. apply exp_pow2. replace (INR 35) with 35 by (rewrite INR_IZR_INZ; reflexivity).
  apply Rmult_le_reg_r with (4 * INR N ^ 2); [nra|].
  replace (INR t ^ 2 * (32 * 448) / (4 * INR N ^ 2) * (4 * INR N ^ 2)) with (INR t ^ 2 * 14336) by (field; lra). nra.
Qed.
Example C89_quarter : forall ops v t, history4096 ops -> (1 <= n_le (ritems_of ops) v)%nat -> (n_le (ritems_of ops) v <= 4 * t)%nat ->
  prob (fun z => off (ritems_of ops) t z v) (rank_after lg64 4096 32 ops v) <= / 2000.
Proof.
  intros ops v t H Hr Ht. destruct (proper4096 H) as (Hp & Hf & Hc). destruct H as (Hm & Hl & Hn). assert (1 <= t)%nat as Ht1 by lia.
  assert (n_le (ritems_of ops) v * (32 + 1) ^ 33 <= 448 / 2 * (2 * 32) ^ 33)%nat as Hh.
  { assert (n_le (ritems_of ops) v <= 4096)%nat as H4 by (eapply Nat.le_trans; [apply filter_length_le|exact Hl]).
    apply Nat2Z.inj_le. rewrite !Nat2Z.inj_mul, !Nat2Z.inj_pow. apply Nat2Z.inj_le in H4.
    apply Z.le_trans with (4096 * 33 ^ 33)%Z; [apply Z.mul_le_mono_nonneg_r; [vm_compute; discriminate|exact H4]|].
    apply Z.leb_le. vm_compute. reflexivity. }
  eapply Rle_trans; [exact (@C89_relative9 f64 f64_ops f64_laws lg64 4096 32 ops v 448 t Hp Hm Hf Hc Hh Ht1 Hr)|].
  set (r := n_le (ritems_of ops) v) in *. apply le_INR in Ht, Hr. rewrite mult_INR in Ht.
  replace (INR 4) with 4 in Ht by (rewrite INR_IZR_INZ; reflexivity). change (INR 1) with 1 in Hr.
  replace (INR 32) with 32 by (rewrite INR_IZR_INZ; reflexivity). change (448 / 2)%nat with 224%nat. replace (INR 224) with 224 by (rewrite INR_IZR_INZ; reflexivity).
  apply Rle_trans with (2 * / 2 ^ 12); [|lra].
  apply Rmult_le_compat_l; [lra|]. apply exp_pow2. replace (INR 12) with 12 by (rewrite INR_IZR_INZ; reflexivity).
  apply Rmult_le_reg_r with (36 * INR r ^ 2); [nra|].
  replace (INR t ^ 2 * (32 * 224) / (36 * INR r ^ 2) * (36 * INR r ^ 2)) with (INR t ^ 2 * 7168) by (field; lra). nra.
Qed.
(** 24 items, k = 2: the answer at 15 can be off by one; by ten (it never is) with probability at most 2 exp (-25/18) by the bound *)
Example C89_nonvacuous : map (fun c => match run (rank_after lg64 24 2 ops24 (w64 15)) c with Returned z => Some (z, off (ritems_of ops24) 1 z (w64 15), off (ritems_of ops24) 2 z (w64 15)) | _ => None end)
    [repeat true 9; repeat false 9] = [Some (14, true, false); Some (16, true, false)]%Z /\
  prob (fun z => off (ritems_of ops24) 10 z (w64 15)) (rank_after lg64 24 2 ops24 (w64 15)) <= 9 / 10.
Proof.
  split; [vm_compute; reflexivity|]. destruct ops24_proper as (H1 & H2 & H3 & H4).
  assert (calc_buffer_size lg64 24 2 = Ret 16%nat) as E by (vm_compute; reflexivity). assert (1 <= 10)%nat as H8 by lia.
  assert (ritems_of ops24 <> []) as Hne by (intros A; apply (f_equal (@length f64)) in A; vm_compute in A; discriminate).
  eapply Rle_trans; [exact (@C89_rank f64 f64_ops f64_laws lg64 24 2 ops24 (w64 15) 16 10 H1 H2 H3 eq_refl E Hne H8)|].
  replace (length (ritems_of ops24)) with 24%nat by (vm_compute; reflexivity).
  replace (INR 10) with 10 by (cbn; lra). replace (INR 2) with 2 by reflexivity. replace (INR 16) with 16 by (cbn; lra). replace (INR 24) with 24 by (cbn; lra).
  rewrite exp_Ropp. assert (20 / 9 <= exp (10 ^ 2 * (2 * 16) / (4 * 24 ^ 2))) as HE.
  { pose proof (exp_ineq1_le (10 ^ 2 * (2 * 16) / (4 * 24 ^ 2) / 2)) as H. 
    replace (10 ^ 2 * (2 * 16) / (4 * 24 ^ 2)) with (10 ^ 2 * (2 * 16) / (4 * 24 ^ 2) / 2 + 10 ^ 2 * (2 * 16) / (4 * 24 ^ 2) / 2) by field. rewrite exp_plus. nra. }
  apply Rmult_le_reg_r with (exp (10 ^ 2 * (2 * 16) / (4 * 24 ^ 2))); [apply exp_pos|].
  pose proof (exp_pos (10 ^ 2 * (2 * 16) / (4 * 24 ^ 2))). rewrite Rmult_assoc, Rinv_l by lra. lra.
Qed.
(** ten RCSketches with k = 4 for 64 items (C87_ten): off by 1/5 or more with probability at most 2 exp (-12.8) *)
Example C89_ten : exists s0, rc_new lgx 64 4 = Ret s0 /\ forall ops rs v, fine ops -> items_of ops = map XFin rs -> rs <> [] -> (length rs <= 64)%nat ->
  prob (fun r => if Rle_dec (1 / 5) (Rabs (last_answer r - upto v rs / size rs)) then true else false)
       (exec (multi_digest xr) (repeat (@Box xr rc_digest s0) 10) (ops ++ [Quant (XFin v)])) <= 2 * exp (- (64 / 5)).
Proof.
  assert (1 <= 4 <= 64)%nat as H1 by lia.
  assert (lgx (XFin (INR (64 / 4))) = XFin (INR (Nat.log2_up (64 / 4)))) as H2 by (change (XFin 4 = XFin (INR 4)); f_equal; cbn; lra).
  destruct (@rc_starts lgx 64 4 H1 H2 eq_refl) as [E (s0 & E0)]. exists s0. split; [exact E0|].
  destruct (@C87_rc lgx 64 4 (spec_size 64 4) s0 H1 H2 eq_refl ltac:(discriminate) eq_refl E E0) as [U _].
  destruct (@C89_rc lgx 64 4 (spec_size 64 4) s0 H1 H2 eq_refl ltac:(discriminate) eq_refl E E0) as [C _].
  assert (1 <= 10)%nat as H10 by lia. intros ops rs v Hf Hi Hne Hl. apply Nat2Z.inj_le in Hl.
  assert (2 / (INR 4 * INR (spec_size 64 4)) / INR 10 = 1 / 640) as EV.
  { change (spec_size 64 4) with 32%nat. replace (INR 32) with 32 by (cbn; lra). replace (INR 4) with 4 by (cbn; lra). replace (INR 10) with 10 by (cbn; lra). lra. }
  assert (0 < 2 / (INR 4 * INR (spec_size 64 4)) / INR 10) as HV by (rewrite EV; lra). assert (0 < 1 / 5) as Ht by lra.
  refine (Rle_trans _ _ _ (@C89_tail _ _ _ _ _ ops rs v (1 / 5) (@C87_copies _ _ _ _ 10 H10 U) (@C89_copies _ _ _ _ _ 10 H10 U C) Hf Hi Hne Hl HV Ht) _).
  cbv beta. rewrite EV. right. f_equal. f_equal. f_equal. field.
Qed.
