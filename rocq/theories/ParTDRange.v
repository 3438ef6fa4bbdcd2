(** Range and monotonicity of the answers of a ParTDigest after any history, in exact arithmetic. *)
From Coq Require Import List Arith ZArith Lia Bool Permutation Sorted Reals Lra.
From Flocq Require Import Core.
From Verif Require Import Base Floats XReal Digest TDigest Spec FloatFacts History ChunkProofs TDigestProofs TDigestProofs2 TDigestExact TDigestExactQ TDigestExactV TDigestHist TDigestTop ParTDProofs ParTDSched ParTDrift.
Set Implicit Arguments.
Local Open Scope R_scope.

Section Range.
  Variable cfg : tcfg xr.
  Hypothesis Hlib : lib_ok cfg.
  Variables threads capacity : nat.
  Hypothesis Hth : (1 <= threads)%nat.
  Notation PD := (par_t_digest cfg threads capacity td_new).
  Notation flush := (pt_flush cfg threads td_new).
  Variables (ops : list (op xr)) (rs : list R).
  Hypothesis Hok : Forall xok ops.
  Hypothesis Hits : items_of ops = map XFin rs.
  Hypothesis Hne : rs <> [].
  Hypothesis Hn : (Z.of_nat (length rs) < 2 ^ 64)%Z.

  (** the state a query works on *)
  Definition settled (s s' : pardigest xr) (cs : list rcen) (lo hi : R) : Prop :=
    flush s = Ret s' /\ tview (pt_digest s') cs lo hi /\ Wt cs = INR (length rs) /\
    (exists x, In x rs /\ x <= lo) /\ (exists x, In x rs /\ hi <= x).

  Lemma settles : always (fun r => exists s' cs lo hi, settled (fst r) s' cs lo hi) (exec PD (pt_new td_new) ops).
  Proof.
    eapply always_mono; [exact (@pt_exec_exact cfg Hlib threads capacity Hth ops rs Hok Hits Hn)|].
    intros [s ans] HP. cbn [fst] in *. destruct (@flush_any cfg Hlib threads Hth s rs HP) as (s' & E & _ & Hd).
    destruct Hd as [(-> & _)|(_ & cs & lo & hi & I)]; [congruence|]. exists s', cs, lo, hi.
    split; [exact E|]. split; [exact (dinv_view I)|]. split; [exact (di_wt I)|]. split; [exact (di_lo I)|exact (di_hi I)].
  Qed.

  Theorem pt_q_range :
    always (fun r => forall v, v <> XNaN -> exists s' a, d_est_q PD (fst r) v = Ret (s', XFin a) /\ 0 <= a <= 1 /\
      ((forall x, In x rs -> xlt v (XFin x)) -> a = 0) /\ ((forall x, In x rs -> xlt (XFin x) v) -> a = 1)) (exec PD (pt_new td_new) ops).
  Proof.
    eapply always_mono; [exact settles|]. intros [s ans] (s' & cs & lo & hi & E & HI & HW & (xl & Xl & Ll) & (xh & Xh & Lh)). cbn [fst] in *.
    intros v Hv. exists s'. cbn [d_est_q par_t_digest]. rewrite E. cbn [bind].
    pose proof (posint_ge (Wt_posint (tv_heavy HI) (tv_ne HI))) as HT. pose proof (lo_hi HI) as Hlh.
    assert (t_centroids (pt_digest s') <> []) as Hc.
    { rewrite (tv_cs HI). pose proof (tv_ne HI). destruct cs; [congruence|discriminate]. }
    destruct v as [|sg|v]; [congruence| |].
    - destruct sg.
      + exists 0. rewrite (@td_est_q_below xr _ (pt_digest s') (XInf true) Hc); [|rewrite (tv_min HI); reflexivity].
        cbn [bind]. rewrite xf0. split; [reflexivity|]. split; [lra|]. split; auto.
        intros H. specialize (H _ Xl). discriminate.
      + exists 1. rewrite (@td_est_q_above xr _ (xr_laws (Z.le_refl 4096)) (pt_digest s') (XInf false) Hc).
        * cbn [bind]. rewrite xf1. split; [reflexivity|]. split; [lra|]. split; auto.
          intros H. specialize (H _ Xl). discriminate.
        * rewrite (tv_min HI), (tv_max HI). apply xle_b. exact Hlh.
        * rewrite (tv_max HI). reflexivity.
    - rewrite (est_q_value HI). pose proof (rq_range HI v) as HR. exists (rq cs lo hi v / Wt cs). cbn [bind].
      split; [reflexivity|]. split; [apply div_between; lra|]. split.
      + intros H. specialize (H _ Xl). unfold xlt in H. cbn in H. injection H as H. apply Rcompare_Lt_inv in H.
        unfold rq. destruct (Rlt_dec v lo); [field; lra|lra].
      + intros H. specialize (H _ Xh). unfold xlt in H. cbn in H. injection H as H. apply Rcompare_Lt_inv in H.
        unfold rq. destruct (Rlt_dec v lo); [lra|]. destruct (Rlt_dec hi v); [field; lra|lra].
  Qed.

  Theorem pt_q_mono :
    always (fun r => exists s' l first last mn mx, flush (fst r) = Ret s' /\ listed (pt_digest s') l /\ head l = Some first /\ last_error l = Some last /\
        d_est_v PD (fst r) f0 = Ret (s', XFin mn) /\ d_est_v PD (fst r) f1 = Ret (s', XFin mx) /\
        forall v w, v <= w ->
          (fst first = mn \/ 2 <= snd first \/ fst first <= v) -> (fst last = mx \/ (2 <= snd last /\ v <> fst last) \/ w <= fst last) ->
          exists a b, d_est_q PD (fst r) (XFin v) = Ret (s', XFin a) /\ d_est_q PD (fst r) (XFin w) = Ret (s', XFin b) /\ a <= b)
      (exec PD (pt_new td_new) ops).
  Proof.
    eapply always_mono; [exact (@pt_exec_exact cfg Hlib threads capacity Hth ops rs Hok Hits Hn)|].
    intros [s ans] HP. cbn [fst] in *. destruct (@flush_any cfg Hlib threads Hth s rs HP) as (s' & E & _ & Hd).
    destruct Hd as [(-> & _)|(_ & cs & lo & hi & I)]; [congruence|]. destruct (d_ends I) as [D0 D1].
    pose proof (dinv_view I) as HI. pose proof (posint_ge (Wt_posint (tv_heavy HI) (tv_ne HI))) as HT.
    exists s', cs, (headc cs), (lastc cs), lo, hi. split; [exact E|]. split; [exact (tv_cs HI)|].
    split; [pose proof (tv_ne HI); destruct cs; [congruence|reflexivity]|]. split; [apply cs_last; exact (tv_ne HI)|].
    cbn [d_est_v d_est_q par_t_digest]. rewrite E. cbn [bind]. rewrite D0, D1. cbn [bind]. split; [reflexivity|]. split; [reflexivity|].
    intros v w Hvw H1 H2. rewrite !(est_q_value HI). cbn [bind].
    do 2 eexists. split; [reflexivity|]. split; [reflexivity|].
    unfold Rdiv. apply Rmult_le_compat_r; [apply Rlt_le, Rinv_0_lt_compat; lra|].
    assert (mono_low cs lo \/ fst (headc cs) <= v) as HL by (unfold mono_low; tauto).
    destruct H2 as [H2|[H2|H2]]; [| |now apply (rq_mono HI)]; apply (rq_mono_full HI); auto; unfold mono_high; auto.
  Qed.

  Theorem pt_v_range :
    always (fun r => exists s' l last mn mx, flush (fst r) = Ret s' /\ listed (pt_digest s') l /\ last_error l = Some last /\ leastR rs mn /\ mostR rs mx /\
        (forall q, 0 <= q <= 1 -> clear_last rs last q -> exists a, d_est_v PD (fst r) (XFin q) = Ret (s', XFin a) /\ mn <= a <= mx) /\
        (forall q q', 0 <= q -> q <= q' -> q' <= 1 -> clear_last rs last q -> clear_last rs last q' ->
           exists a b, d_est_v PD (fst r) (XFin q) = Ret (s', XFin a) /\ d_est_v PD (fst r) (XFin q') = Ret (s', XFin b) /\ a <= b) /\
        (forall q, 0 <= q <= 1 -> ~ clear_last rs last q ->
           (snd last = 2 /\ d_est_v PD (fst r) (XFin q) = Ret (s', XNaN)) \/
           exists a, d_est_v PD (fst r) (XFin q) = Ret (s', XFin a) /\ a <= mx))
      (exec PD (pt_new td_new) ops).
  Proof.
    eapply always_mono; [exact settles|]. intros [s ans] (s' & cs & lo & hi & E & HI & HW & (xl & Xl & Ll) & (xh & Xh & Lh)). cbn [fst] in *.
    assert (exists mn, leastR rs mn) as (mn & Hmn).
    { clear - Hne. induction rs as [|x l IH]; [congruence|]. destruct l as [|y l].
      - exists x. split; [now left|]. intros z [->|[]]; lra.
      - destruct IH as (m & Hm & Hm'); [discriminate|]. destruct (Rle_dec x m).
        + exists x. split; [now left|]. intros z [->|Hz]; [lra|]. specialize (Hm' z Hz). lra.
        + exists m. split; [now right|]. intros z [->|Hz]; [lra|]. now apply Hm'. }
    assert (exists mx, mostR rs mx) as (mx & Hmx).
    { clear - Hne. induction rs as [|x l IH]; [congruence|]. destruct l as [|y l].
      - exists x. split; [now left|]. intros z [->|[]]; lra.
      - destruct IH as (m & Hm & Hm'); [discriminate|]. destruct (Rle_dec m x).
        + exists x. split; [now left|]. intros z [->|Hz]; [lra|]. specialize (Hm' z Hz). lra.
        + exists m. split; [now right|]. intros z [->|Hz]; [lra|]. now apply Hm'. }
    pose proof (proj2 Hmn _ Xl) as B1. pose proof (proj2 Hmx _ Xh) as B2.
    pose proof (posint_ge (Wt_posint (tv_heavy HI) (tv_ne HI))) as HT.
    assert (Wt cs < IZR (2 ^ 64)) as H64. { rewrite HW, INR_IZR_INZ. now apply IZR_lt. }
    assert (forall q, 0 <= q <= 1 -> 0 <= Wt cs * q) as Hnn by (intros; apply Rmult_le_pos; lra).
    exists s', cs, (lastc cs), mn, mx. split; [exact E|]. split; [exact (tv_cs HI)|].
    split; [apply cs_last; exact (tv_ne HI)|]. split; [exact Hmn|]. split; [exact Hmx|].
    assert (forall q, clear_last rs (lastc cs) q <-> clear_of_last cs (Wt cs * q)) as HC.
    { intros q. unfold clear_last, clear_of_last. rewrite <- HW. tauto. }
    cbn [d_est_v par_t_digest]. rewrite E. cbn [bind].
    split; [|split].
    - intros q Hq Hcl. apply HC in Hcl. rewrite (est_v_value HI Hq H64 Hcl). cbn [bind].
      eexists. split; [reflexivity|]. pose proof (rv_range HI (Hnn q Hq)). lra.
    - intros q q' H1 H2 H3 C1 C2. apply HC in C1, C2.
      rewrite (@est_v_value _ _ _ _ HI q ltac:(lra) H64 C1), (@est_v_value _ _ _ _ HI q' ltac:(lra) H64 C2). cbn [bind].
      do 2 eexists. split; [reflexivity|]. split; [reflexivity|]. apply (rv_mono HI); [apply Hnn; lra|].
      apply Rmult_le_compat_l; lra.
    - intros q Hq Hcl. rewrite HC in Hcl. destruct (est_v_last_branch HI Hq Hcl) as (E1 & H0 & H1).
      rewrite E1. cbn [bind]. destruct (Req_EM_T (snd (lastc cs)) 2) as [E2|E2]; [left; auto|right].
      eexists. split; [reflexivity|]. destruct H1 as [H1|H1]; [congruence|]. lra.
  Qed.
End Range.
