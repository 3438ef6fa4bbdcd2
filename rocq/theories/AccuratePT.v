(** ParTDigest as an accurate digest in exact arithmetic. *)
From Coq Require Import List Arith ZArith Lia Bool Reals Lra.
From Verif Require Import Base Floats XReal Digest Spec FloatFacts History LinearProofs WrapProofs TDigest ChunkProofs TDigestProofs TDigestProofs2.
From Verif Require Import ParallelProofs TDigestExact TDigestHist TDigestTop TDigestScale TDigestAcc TDigestAcc2 TDigestCap TDigestDrift Accurate AccuratePar AccurateTop ParTDProofs ParTDSched ParTDrift.
Set Implicit Arguments.
Set Universe Polymorphism.
Unset Universe Minimization ToSet.
Local Open Scope R_scope.

(** ** how often the buffer is delivered *)
Lemma batches_count capacity (ops : list (op xr)) : forall b,
  ((capacity + 1) * length (batches capacity b ops) + length (held capacity b ops) <= length b + length (items_of ops) + (capacity + 1) * n_queries ops)%nat.
Proof.
  assert (forall b : list xr, (capacity + 1) * length (full capacity b) + length (keep capacity b) <= length b)%nat as HF.
  { intros b. unfold full, keep. destruct (Nat.leb_spec (length b) capacity); cbn [length]; lia. }
  induction ops as [|o ops IH]; intros b; [cbn; lia|].
  destruct o as [x|l|v|q]; cbn [batches held items_of n_queries].
  - specialize (IH (keep capacity (b ++ [x]))). specialize (HF (b ++ [x])). rewrite app_length. rewrite app_length in HF. change (length (x :: items_of ops)) with (S (length (items_of ops))). cbn [length] in HF. lia.
  - specialize (IH (keep capacity (b ++ l))). specialize (HF (b ++ l)). rewrite !app_length. rewrite app_length in HF. lia.
  - specialize (IH []). rewrite app_length. destruct b; cbn [rest length] in *; lia.
  - specialize (IH []). rewrite app_length. destruct b; cbn [rest length] in *; lia.
Qed.
Lemma deliveries_bound capacity (ops : list (op xr)) : (deliveries capacity ops <= length (items_of ops) / (capacity + 1) + n_queries ops + 1)%nat.
Proof.
  unfold deliveries. pose proof (batches_count capacity ops []) as H. cbn [length] in H.
  assert (length (rest (held capacity [] ops)) <= 1)%nat as H1 by (destruct (held capacity [] ops); cbn; lia).
  assert (length (batches capacity [] ops) - n_queries ops <= length (items_of ops) / (capacity + 1))%nat by (apply Nat.div_le_lower_bound; nia).
  lia.
Qed.

(** the rank error of a ParTDigest after [q] queries and [n] items *)
Definition pt_error (lam : R -> R) (threads capacity : nat) (q n : nat) : R :=
  INR (n / (capacity + 1) + q + 1) * (Rmax 1 (lam (INR n) * INR n) - 1) + chunk_loss lam threads * INR n + Rmax 1 (Rmax 1 (lam (INR n) * INR n) / 2).

Section PT.
  Variables (cfg : tcfg xr) (lam : R -> R) (threads capacity : nat) (lim : Z).
  Hypothesis HS : scaled cfg lam.
  Hypothesis Hth : (1 <= threads)%nat.
  Hypothesis HL : (lim < 2 ^ 64)%Z.
  Notation PD := (par_t_digest cfg threads capacity td_new).

  Lemma pt_exec_ret ops rs : Forall xok ops -> items_of ops = map XFin rs -> (Z.of_nat (length rs) < 2 ^ 64)%Z ->
    exists r, exec PD (pt_new td_new) ops = Ret r.
  Proof using HS Hth.
    intros Hok E Hn. pose proof (scaled_lib HS) as Hlib.
    assert (forall ops s pre, Forall xok ops -> pexact s pre -> forall rs, items_of ops = map XFin rs -> (Z.of_nat (length (pre ++ rs)) < 2 ^ 64)%Z ->
      exists r, exec PD s ops = Ret r) as HH.
    { clear ops rs Hok E Hn. intros ops. induction ops as [|o ops IH]; intros s pre Hok Hs rs E Hn; [eexists; reflexivity|].
      inversion Hok as [|? ? Ho Hok']; subst. cbn [exec].
      assert (exists r1 r2, rs = r1 ++ r2 /\ items_of [o] = map XFin r1 /\ items_of ops = map XFin r2) as (r1 & r2 & -> & E1 & E2).
      { rewrite items_of_cons in E. symmetry in E. apply map_eq_app in E as (r1 & r2 & -> & A & B). exists r1, r2. auto. }
      assert (exists r, step PD s o = Ret r /\ pexact (fst r) (pre ++ r1)) as (r & Er & HS').
      { destruct o as [x|l|v|q]; cbn [step items_of xok] in *.
        - destruct r1 as [|r [|? ?]]; try discriminate. injection E1 as ->. destruct (@add_pexact cfg Hlib threads capacity Hth s pre [r] Hs) as (s' & E' & H').
          cbn [d_add par_t_digest]. unfold pt_add. cbn [map] in E'. rewrite E'. eexists. split; [reflexivity|exact H'].
        - rewrite app_nil_r in E1. subst l. destruct (@add_pexact cfg Hlib threads capacity Hth s pre r1 Hs) as (s' & E' & H').
          cbn [d_add_buffer par_t_digest]. rewrite E'. eexists. split; [reflexivity|exact H'].
        - destruct r1; [|discriminate]. rewrite app_nil_r. cbn [d_est_q par_t_digest]. destruct (@flush_any cfg Hlib threads Hth s pre Hs) as (s' & -> & B & H'). cbn [bind].
          destruct (d_est_q_returns H' Ho) as [a ->]. cbn [bind]. eexists. split; [reflexivity|]. now apply flushed.
        - destruct r1; [|discriminate]. rewrite app_nil_r. destruct Ho as (r & -> & Hr). cbn [d_est_v par_t_digest].
          destruct (@flush_any cfg Hlib threads Hth s pre Hs) as (s' & -> & B & H'). cbn [bind].
          destruct (@d_est_v_returns (pt_digest s') pre r H' Hr) as [a ->]; [rewrite app_length in Hn; lia|]. cbn [bind]. eexists. split; [reflexivity|]. now apply flushed. }
      rewrite Er. cbn [bind]. destruct r as [s' a]. cbn [fst] in HS'. rewrite app_assoc in Hn.
      destruct (IH s' (pre ++ r1) Hok' HS' r2 E2 Hn) as [[s'' b] E3]. rewrite E3. eexists. reflexivity. }
    apply (HH ops (pt_new td_new) [] Hok) with (rs := rs); auto. exists [], []. repeat split; auto. left. auto.
  Qed.

  Theorem pt_rank : rank_accurate PD (pt_new td_new) lim (fun _ q n => pt_error lam threads capacity q n).
  Proof using HS Hth HL.
    split.
    - intros ops Hf Hl. destruct (fine_items Hf) as [rs E]. rewrite E, map_length in Hl.
      assert (Z.of_nat (length rs) < 2 ^ 64)%Z as Hl' by lia.
      destruct (@pt_exec_ret ops rs (fine_xok Hf) E Hl') as [r Er]. refine (eq_ind_r (fun m => always (fun _ => True) m) _ Er). exact I.
    - intros ops rs v Hf Hits Hne Hl. apply ask_quant.
      assert (Z.of_nat (length rs) < 2 ^ 64)%Z as Hl' by lia.
      destruct (@pt_exec_ret ops rs (fine_xok Hf) Hits Hl') as [r Er].
      refine (eq_ind_r (fun m => whenever _ m) _ Er). cbn [whenever].
      destruct HS as (k & inv & cf & Hs & Hm & Hp & Hst).
      destruct (@pt_drift cfg k inv cf lam Hs Hm Hp Hst threads Hth capacity ops rs r Hits Hne Er) as [Hq _].
      destruct (Hq v) as (s' & a & Ea & Ha). refine (eq_ind_r (fun m => whenever _ m) _ Ea). cbn [whenever snd]. exists a. split; [reflexivity|].
      refine (within_wider _ Ha). unfold par_error, pt_error, cap. pose proof (deliveries_bound capacity ops) as HD. rewrite Hits, map_length in HD. apply le_INR in HD.
      pose proof (Rmax_l 1 (lam (INR (length rs)) * INR (length rs))). nra.
  Qed.
  Theorem pt_counted : counted PD (pt_new td_new) lim.
  Proof using HS Hth HL.
    intros ops Hf Hl. destruct (fine_items Hf) as [rs E]. rewrite E, map_length in *. assert (Z.of_nat (length rs) < 2 ^ 64)%Z as Hl' by lia.
    eapply whenever_mono; [apply always_whenever, (@pt_exact_count cfg (scaled_lib HS) threads capacity Hth ops rs (fine_xok Hf) E Hl')|]. intros r [H _]. exact H.
  Qed.
End PT.
