(** Property C90: large errors of the values returned by the RC sketches are exponentially unlikely. *)
From Coq Require Import List Arith ZArith NArith Lia Bool Reals Lra.
From Verif Require Import Base Floats IEEE Digest Spec FloatFacts History TDigest RCSketch RCProofs RCHist RCRank RCExpect RCTop RCQuery RCObs RCObs2 RCRel RCRelTop RCValue P_Parallel P_TDigest P_RC P_RCValue.
From Verif Require Import RC2 RC2Sections RC2Proofs RC2Hist RC2Rank RC2Top RC2Value RC2Var P_RC2.
From Verif Require Import RCExp RCExpTop RCTail RCValueTail P_Tail.
Set Implicit Arguments.
Local Open Scope R_scope.

(** [misses items d x q]: the value x, returned for the quantile q, is d ranks or more off the rank q * N sought (as computed in
    floating point): at most q * N - d of the items are <= x, or at least q * N + d are < x.
    Any number of value queries of the same sketch, all at once: the bound does not depend on how many. *)
Theorem C90_values : forall F (FO : FloatOps F) (FL : FloatLaws F) lg n k (ops : list (rop F)) qs bs d,
  proper lg n k ops -> default_mode ops -> few_levels31 n k ops -> Nat.even k = true -> calc_buffer_size lg n k = Ret bs ->
  ritems_of ops <> [] -> (Z.of_nat (length (ritems_of ops)) <= fint)%Z -> Forall quantile qs -> (1 <= d)%nat ->
  prob (fun xs => existsb (fun p => misses (ritems_of ops) d (fst p) (snd p)) (combine xs qs))
       (do s <- rc_run lg n k ops; mapM (fun q => rc_est_value s q) qs)
  <= 2 * INR (length (ritems_of ops)) * exp (- (INR d ^ 2 * (INR k * INR bs) / (4 * INR (length (ritems_of ops)) ^ 2))).
Proof. exact @values_chernoff. Qed.
Print Assumptions C90_values.

(** RCSketch2, whose items need not weigh as much as those inserted: twice the ranks *)
Theorem C90_values2 : forall F (FO : FloatOps F) (FL : FloatLaws F) extra k (ops : list (rop F)) qs o h d,
  proper2 k ops -> default_mode ops -> no_nan (ritems_of ops) -> fewer k (length (ritems_of ops)) -> ritems_of ops <> [] ->
  Nat.odd o = true -> (o <= min_sec k + 1)%nat -> ((o + 1) ^ h * length (ritems_of ops) < 6 * N.to_nat k * (2 * o) ^ h)%nat ->
  INR (length (ritems_of ops)) + err2 k o h (length (ritems_of ops)) <= IZR fint -> Forall quantile qs -> (1 <= d)%nat ->
  prob (fun xs => existsb (fun p => misses (ritems_of ops) (2 * d) (fst p) (snd p)) (combine xs qs))
       (do s <- rc2_run extra k ops; mapM (fun q => rc2_est_value s q) qs)
  <= 2 * INR (length (ritems_of ops)) * exp (- (INR d ^ 2 / (2 * var2 k o h (length (ritems_of ops))))).
Proof. exact @values2_chernoff. Qed.
Print Assumptions C90_values2.

(* ------------------------------------------------------------------ *)
(** * Examples *)
(** an RCSketch (f64) for 4096 items with k = 32: however many values are queried, with probability 1 - 10^-6 none of them is off by
    a tenth of the items or more *)
Example C90_million : forall ops qs d, history4096 ops -> ritems_of ops <> [] -> Forall quantile qs -> (length (ritems_of ops) <= 10 * d)%nat ->
  prob (fun xs => existsb (fun p => misses (ritems_of ops) d (fst p) (snd p)) (combine xs qs))
       (do s <- rc_run lg64 4096 32 ops; mapM (fun q => rc_est_value s q) qs) <= / 1000000.
Proof.
  intros ops qs t H Hne Hqs Ht. destruct (proper4096 H) as (Hp & Hf & Hc). destruct H as (Hm & Hl & Hn).
  assert (few_levels31 4096 32 ops) as Hf31 by (left; split; [exact Hl|vm_compute; discriminate]).
  assert (Z.of_nat (length (ritems_of ops)) <= @fint f64 f64_ops f64_laws)%Z as Hi.
  { apply Nat2Z.inj_le in Hl. eapply Z.le_trans; [exact Hl|]. vm_compute. discriminate. }
  assert (1 <= length (ritems_of ops))%nat as H1 by (destruct (ritems_of ops); [congruence|cbn; lia]).
  assert (1 <= t)%nat as Ht1 by lia.
  eapply Rle_trans; [exact (@C90_values f64 f64_ops f64_laws lg64 4096 32 ops qs 448 t Hp Hm Hf31 eq_refl Hc Hne Hi Hqs Ht1)|].
  set (N := length (ritems_of ops)) in *. apply le_INR in Hl, Ht, H1. rewrite mult_INR in Ht.
  replace (INR 4096) with 4096 in Hl by (rewrite INR_IZR_INZ; reflexivity). replace (INR 10) with 10 in Ht by (rewrite INR_IZR_INZ; reflexivity). change (INR 1) with 1 in H1.
  replace (INR 32) with 32 by (rewrite INR_IZR_INZ; reflexivity). replace (INR 448) with 448 by (rewrite INR_IZR_INZ; reflexivity).
  apply Rle_trans with (8192 * / 2 ^ 35); [|lra].
  apply Rmult_le_compat; [lra|apply Rlt_le, exp_pos|lra|]. apply exp_pow2. replace (INR 35) with 35 by (rewrite INR_IZR_INZ; reflexivity).
  apply Rmult_le_reg_r with (4 * INR N ^ 2); [nra|].
  replace (INR t ^ 2 * (32 * 448) / (4 * INR N ^ 2) * (4 * INR N ^ 2)) with (INR t ^ 2 * 14336) by (field; lra). nra.
Qed.
(** 24 items, k = 2: the ranks of the values returned (C79_nonvacuous) against the ranks sought: off by up to two with these coins, none by three *)
Definition misses24 (d : nat) (coins : list bool) : option bool :=
  let qs := map (fun i => fdiv (w64 (Z.of_nat i)) (w64 24)) (seq 0 25) in
  match run (do s <- rc_run lg64 24 2 ops24; mapM (fun q => rc_est_value s q) qs) coins with
  | Returned xs => Some (existsb (fun p => (d <=? fst p - snd p)%nat || (d <=? snd p - fst p)%nat)
                          (combine (map (n_le (ritems_of ops24)) xs) (seq 0 25)))
  | _ => None end.
Example C90_nonvacuous : map (fun d => map (misses24 d) [repeat true 9; repeat false 9]) [1; 2; 3]%nat = [[Some true; Some true]; [Some true; Some false]; [Some false; Some false]].
Proof. vm_compute. reflexivity. Qed.
(** an RCSketch2 (f64) with k = 4096 after ninety to a hundred million numbers: with probability 1 - 10^-9 no value is off by 1% of
    the items or more *)
Example C90_billion : forall extra (ops : list (rop f64)) qs d, default_mode ops -> no_nan (ritems_of ops) ->
  (90000000 <= Z.of_nat (length (ritems_of ops)) <= 100000000)%Z -> Forall quantile qs -> (length (ritems_of ops) <= 200 * d)%nat ->
  prob (fun xs => existsb (fun p => misses (ritems_of ops) (2 * d) (fst p) (snd p)) (combine xs qs))
       (do s <- rc2_run extra 4096 ops; mapM (fun q => rc2_est_value s q) qs) <= / 1000000000.
Proof.
  intros extra ops qs d Hm Hn Hl Hqs Hd. assert (min_sec 4096 = 1024)%nat as E by (vm_compute; reflexivity).
  assert (ritems_of ops <> []) as Hne by (intros A; rewrite A in Hl; cbn in Hl; lia).
  assert (proper2 4096 ops) as Hp by (split; [split; vm_compute; discriminate|]; right; rewrite E; unfold u32_max; lia).
  assert (fewer 4096 (length (ritems_of ops))) as Hf by (right; split; [vm_compute; discriminate|lia]).
  assert ((1025 + 1) ^ 13 * length (ritems_of ops) < 6 * N.to_nat 4096 * (2 * 1025) ^ 13)%nat as Hh.
  { apply Nat2Z.inj_lt. rewrite !Nat2Z.inj_mul, !Nat2Z.inj_pow, Nat2Z.inj_add, Nat2Z.inj_mul, N_nat_Z. apply Z.le_lt_trans with (1026 ^ 13 * 100000000)%Z; [|vm_compute; reflexivity].
    apply Z.mul_le_mono_nonneg_l; [vm_compute; discriminate|lia]. }
  assert (1025 <= min_sec 4096 + 1)%nat as Ho by (rewrite E; lia). assert (1 <= d)%nat as Hd1 by lia.
  destruct Hl as [L1 L2]. apply IZR_le in L1, L2. rewrite <- INR_IZR_INZ in L1, L2.
  assert (INR (length (ritems_of ops)) + err2 4096 1025 13 (length (ritems_of ops)) <= IZR (@fint f64 f64_ops f64_laws)) as Hi.
  { unfold err2. rewrite E. replace (INR 1025) with 1025 by (rewrite INR_IZR_INZ; reflexivity). replace (INR 1024) with 1024 by (rewrite INR_IZR_INZ; reflexivity).
    change (@fint f64 f64_ops f64_laws) with 9007199254740992%Z. cbn [Nat.add pow]. lra. }
  eapply Rle_trans; [exact (@C90_values2 f64 f64_ops f64_laws extra 4096 ops qs 1025 13 d Hp Hm Hn Hf Hne eq_refl Ho Hh Hi Hqs Hd1)|].
  set (N := length (ritems_of ops)) in *. apply le_INR in Hd. rewrite mult_INR in Hd. replace (INR 200) with 200 in Hd by (rewrite INR_IZR_INZ; reflexivity).
  unfold var2, rho. rewrite E. replace (INR 1025) with 1025 by (rewrite INR_IZR_INZ; reflexivity). replace (INR 1024) with 1024 by (rewrite INR_IZR_INZ; reflexivity).
  assert (1 <= ((2 * (1 + / 1025)) ^ (13 + 1) - 1) / (2 * (1 + / 1025) - 1) <= 16700) as HC by (cbn [Nat.add pow]; lra).
  set (C := ((2 * (1 + / 1025)) ^ (13 + 1) - 1) / (2 * (1 + / 1025) - 1)) in *.
  apply Rle_trans with (200000000 * / 2 ^ 68); [|lra].
  apply Rmult_le_compat; [lra|apply Rlt_le, exp_pos|lra|]. apply exp_pow2. replace (INR 68) with 68 by (rewrite INR_IZR_INZ; reflexivity).
  apply Rmult_le_reg_r with (2 * (C * INR N / 1024)); [nra|].
  replace (INR d ^ 2 / (2 * (C * INR N / 1024)) * (2 * (C * INR N / 1024))) with (INR d ^ 2) by (field; lra).
  apply Rle_trans with (68 * (2 * (16700 * INR N / 1024))); [nra|].
  apply Rle_trans with ((INR N / 200) ^ 2); [nra|]. apply pow_incr. lra.
Qed.
