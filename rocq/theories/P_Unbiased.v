(** Property C94: BufferedDigest and ParallelDigest keep quantile estimates unbiased. *)
From Coq Require Import List Arith ZArith NArith Lia Bool Permutation Reals Lra.
From Verif Require Import Base Floats XReal IEEE Digest Spec FloatFacts History TDigest RCSketch RCProofs RCHist RCRank RCExpect RCTop RCQuery RCObs RCValue P_Parallel P_TDigest P_RC.
From Verif Require Import TDigestAcc TDigestAcc2 TDigestDrift Accurate AccuratePar AccurateTop AccurateRC AccurateRC2 P_RCSym Average AverageRC P_Average UnbiasedWrap.
Set Implicit Arguments.
Set Universe Polymorphism.
Unset Universe Minimization ToSet.
Local Open Scope R_scope.

(** [unbiased]: see C87; [counted]: see C81.  Exact arithmetic.
    A BufferedDigest is as unbiased as the digest inside, with the same bound on the mean square error, *)
Theorem C94_buffered : forall (D : digest xr) (d : dst D) (c : nat) lim a, (1 <= c)%nat -> unbiased D d lim a ->
  unbiased (buffered_digest D) (buffered_new D d c) lim a.
Proof. exact buffered_unbiased. Qed.
Print Assumptions C94_buffered.

(** A ParallelDigest of unbiased members, filled by any insertions, with quantile queries in between, of which the first is a buffer whose length is a positive multiple
    of the number of members ([filled]: then no member is empty, see C10): the expectation of its estimate is the fraction of the items
    <= v, and its mean square error is that of the members, weighted with the squares of their shares of the items, whatever the
    schedule of the threads.  If all buffers are multiples of the number of members, the shares are equal. *)
Theorem C94_parallel : forall (D : digest xr) lim a (ds0 : list (dst D)), (lim < 2 ^ 53)%Z -> ds0 <> [] -> (Z.of_nat (length ds0) < 2 ^ 53)%Z ->
  Forall (fun d => unbiased D d lim a /\ counted D d lim) ds0 -> forall sched ops rs v,
  filled (length ds0) ops -> fine ops -> Forall (fun o => forall q, o <> Val q) ops -> items_of ops = map XFin rs -> (Z.of_nat (length rs) <= lim)%Z ->
  exists parts, length parts = length ds0 /\ Permutation rs (concat parts) /\ Forall (fun l => l <> []) parts /\
    (Forall (fun o => (exists v, o = Quant v) \/ exists l j, o = AddBuf l /\ length l = (j * length ds0)%nat) ops -> exists n, Forall (fun l => length l = n) parts) /\
    always (fun r => exists al x, snd r = al ++ [XFin x]) (exec (parallel_digest D) (parallel_new D sched ds0) (ops ++ [Quant (XFin v)])) /\
    expect last_answer (exec (parallel_digest D) (parallel_new D sched ds0) (ops ++ [Quant (XFin v)])) = upto v rs / size rs /\
    expect (fun r => (last_answer r - upto v rs / size rs) ^ 2) (exec (parallel_digest D) (parallel_new D sched ds0) (ops ++ [Quant (XFin v)])) <=
      sumR (map (fun l => (size l / size rs) ^ 2 * a l v) parts).
Proof. exact parallel_unbiased. Qed.
Print Assumptions C94_parallel.

(** So it is never worse than its worst member, and m times better when the items are spread evenly over m members. *)
Theorem C94_parallel_bound : forall (D : digest xr) lim a (ds0 : list (dst D)) b sched ops rs v, (lim < 2 ^ 53)%Z -> ds0 <> [] -> (Z.of_nat (length ds0) < 2 ^ 53)%Z ->
  Forall (fun d => unbiased D d lim a /\ counted D d lim) ds0 -> (forall l, a l v <= b) -> 0 <= b ->
  filled (length ds0) ops -> fine ops -> Forall (fun o => forall q, o <> Val q) ops -> items_of ops = map XFin rs -> (Z.of_nat (length rs) <= lim)%Z ->
  let answer := exec (parallel_digest D) (parallel_new D sched ds0) (ops ++ [Quant (XFin v)]) in
  expect last_answer answer = upto v rs / size rs /\
  expect (fun r => (last_answer r - upto v rs / size rs) ^ 2) answer <= b /\
  (Forall (fun o => (exists v, o = Quant v) \/ exists l j, o = AddBuf l /\ length l = (j * length ds0)%nat) ops ->
    expect (fun r => (last_answer r - upto v rs / size rs) ^ 2) answer <= b / INR (length ds0)).
Proof. exact parallel_const. Qed.
Print Assumptions C94_parallel_bound.

(** ten RCSketches with k = 4 for 64 items (bs = 32) in parallel, given 60 items at once and asked about w before: unbiased, mean square error at most 1/640 *)
Example C94_ten : exists s0, rc_new lgx 64 4 = Ret s0 /\ forall sched rs w v, length rs = 60%nat ->
  let answer := exec (parallel_digest rc_digest) (parallel_new rc_digest sched (repeat s0 10)) [AddBuf (map XFin rs); Quant (XFin w); Quant (XFin v)] in
  expect last_answer answer = upto v rs / 60 /\ expect (fun r => (last_answer r - upto v rs / 60) ^ 2) answer <= 1 / 640.
Proof.
  assert (1 <= 4 <= 64)%nat as H1 by lia.
  assert (lgx (XFin (INR (64 / 4))) = XFin (INR (Nat.log2_up (64 / 4)))) as H2 by (change (XFin 4 = XFin (INR 4)); f_equal; cbn; lra).
  destruct (@rc_starts lgx 64 4 H1 H2 eq_refl) as [E (s0 & E0)]. exists s0. split; [exact E0|].
  destruct (@C87_rc lgx 64 4 (spec_size 64 4) s0 H1 H2 eq_refl ltac:(discriminate) eq_refl E E0) as [U _].
  destruct (@C86_rc lgx 64 4 2 (spec_size 64 4) s0 H1 H2 eq_refl ltac:(discriminate) eq_refl E ltac:(vm_compute; lia) E0) as (_ & _ & C).
  intros sched rs w v Hl answer.
  assert (size rs = 60) as Es by (rewrite Hl, INR_IZR_INZ; reflexivity).
  destruct (@C94_parallel_bound rc_digest 64 (fun _ _ => 2 / (INR 4 * INR (spec_size 64 4))) (repeat s0 10) (2 / (4 * 32)) sched [AddBuf (map XFin rs); Quant (XFin w)] rs v) as (A1 & _ & A3).
  - reflexivity.
  - discriminate.
  - reflexivity.
  - rewrite Forall_forall. intros d Hd. apply repeat_spec in Hd. subst d. split; [exact U|exact C].
  - intros _. cbn beta. right. change (spec_size 64 4) with 32%nat. replace (INR 32) with 32 by (cbn; lra). replace (INR 4) with 4 by (cbn; lra). reflexivity.
  - lra.
  - exists (map XFin rs), 6%nat, [Quant (XFin w)]. split; [reflexivity|]. split; [lia|]. split; [rewrite map_length, Hl; reflexivity|]. repeat constructor. discriminate.
  - split; [constructor; [cbn; apply Forall_forall; intros x Hx; apply in_map_iff in Hx as (y & <- & _); now exists y|repeat constructor; now exists w]|].
    cbn [queries_of app]. repeat constructor. cbn [fst]. destruct rs; discriminate.
  - repeat constructor; discriminate.
  - cbn. apply app_nil_r.
  - rewrite Hl. vm_compute. discriminate.
  - rewrite Es in A1, A3. split; [exact A1|]. eapply Rle_trans; [apply A3|].
    + constructor; [right; exists (map XFin rs), 6%nat; split; [reflexivity|]; rewrite map_length, Hl; reflexivity|constructor; [left; now exists (XFin w)|constructor]].
    + right. rewrite repeat_length. replace (INR 10) with 10 by (cbn; lra). lra.
Qed.
