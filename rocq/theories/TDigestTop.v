(** The t-digest facts at the level of whole histories, in the form of the properties. *)
From Coq Require Import List Arith ZArith Lia Bool Permutation Sorted Reals Lra.
From Flocq Require Import Core BinarySingleNaN.
From Verif Require Import Base Floats XReal IEEE Digest TDigest ScaleFunctions Spec FloatFacts History TDigestProofs TDigestProofs2 TDigestExact TDigestExactQ TDigestExactV TDigestHist.
Set Implicit Arguments.
Local Open Scope R_scope.

(** The centroids, as pairs of reals (mean, weight). *)
Definition listed (s : tdigest xr) (l : list (R * R)) : Prop :=
  t_centroids s = map (fun p => Cen (XFin (fst p)) (XFin (snd p))) l.

(** Smallest and largest of a list of reals. *)
Definition leastR (l : list R) (m : R) : Prop := In m l /\ forall x, In x l -> m <= x.
Definition mostR (l : list R) (m : R) : Prop := In m l /\ forall x, In x l -> x <= m.

(* ------------------------------------------------------------------ *)
(** ** Any arithmetic *)
Section Any.
  Context {F : Type} {FO : FloatOps F} {FL : FloatLaws F}.

  Lemma est_v_ends (s : tdigest F) (n : Z) : holds s n -> (1 <= n)%Z -> (n <= fint)%Z -> (n <= 2 ^ 53)%Z ->
    td_est_v s f0 = Ret (t_min s) /\ td_est_v s f1 = Ret (t_max s).
  Proof.
    intros Hh H1 H2 H3. destruct (holds_count Hh H2 H3) as [Ht _].
    pose proof (fint_ge (F := F)) as Hi4.
    assert (1 <= IZR n) as Hn by (change 1 with (IZR 1); now apply IZR_le).
    split; unfold td_est_v; cbv zeta.
    - assert (fval (fmul (total_weight s) f0) = XFin 0) as Hm.
      { rewrite (fmul_fin Ht fval_f0). rewrite Rmult_0_r. apply frnd_exact. apply fexact_0. }
      rewrite (proj2 (flt_val Hm fval_f1)) by lra. reflexivity.
    - assert (fval (fmul (total_weight s) f1) = XFin (IZR n)) as Hm.
      { rewrite (fmul_fin Ht fval_f1). rewrite Rmult_1_r. apply frnd_exact. apply fint_exact. lia. }
      assert (flt (fmul (total_weight s) f1) f1 = false) as ->.
      { apply not_true_is_false. rewrite (flt_val Hm fval_f1). lra. }
      destruct Hh as (zs & Hw & Hz). pose proof (wts_pos Hw) as Hp. unfold wts in Hw.
      destruct Hw as [|c z cs zs' [Hc Hz1] Hw'] eqn:Ew; [cbn in Hz; lia|]. clear Ew.
      cbn [head unwrap bind].
      assert (1 <= z <= n)%Z as Hzn. { cbn in Hz. pose proof (sumZ_pos (Forall_inv_tail Hp)). unfold sumZ in *. lia. }
      assert (flt (fmul (total_weight s) f1) (fdiv (weight c) f2) = false) as ->.
      { apply not_true_is_false. rewrite (flt_val Hm (half_val Hc ltac:(lia))).
        assert (IZR z <= IZR n) by (apply IZR_le; lia). lra. }
      rewrite andb_false_r.
      assert (fval (fsub (total_weight s) f1) = XFin (IZR (n - 1))) as Hs1.
      { rewrite (fsub_fin Ht fval_f1), <- minus_IZR. apply frnd_exact, fint_exact. lia. }
      rewrite (proj2 (fgt_val Hm Hs1)); [reflexivity|]. rewrite minus_IZR. lra.
  Qed.

  Variable cfg : tcfg F.
  Hypothesis Hlib : lib_ok cfg.
  Notation D := (t_digest cfg).

  Theorem td_history_ends ops : items_of ops <> [] -> (Z.of_nat (length (items_of ops)) <= fint)%Z -> (Z.of_nat (length (items_of ops)) <= 2 ^ 53)%Z ->
    whenever (fun r => d_est_v D (fst r) f0 = Ret (fst r, t_min (fst r)) /\ d_est_v D (fst r) f1 = Ret (fst r, t_max (fst r)))
      (exec D td_new ops).
  Proof.
    intros Hne H1 H2. eapply whenever_mono; [apply (td_exec_counts Hlib ops)|]. intros [s ans] Hr; cbn [fst] in *.
    destruct (est_v_ends (Hr H1)) as [A B]; auto.
    { destruct (items_of ops); [congruence|cbn [length]; lia]. }
    cbn [d_est_v t_digest]. rewrite A, B. split; reflexivity.
  Qed.
End Any.

(* ------------------------------------------------------------------ *)
(** ** f64 *)
Lemma f64_scaled_exact k : (Z.abs k <= 2 ^ 52)%Z -> @fexact f64 _ f64_laws (IZR k * bpow radix2 900).
Proof.
  intros Hk. change (bexact 53 1024 (IZR k * bpow radix2 900)).
  change (IZR k * bpow radix2 900) with (F2R (Float radix2 k 900)). split.
  - change (SpecFloat.fexp 53 1024) with (FLT_exp (SpecFloat.emin 53 1024) 53). apply generic_format_FLT.
    exists (Float radix2 k 900); cbn [Fnum Fexp]; auto.
    + change (radix2 ^ 53)%Z with (2 ^ 53)%Z. apply Z.le_lt_trans with (1 := Hk). reflexivity.
    + unfold SpecFloat.emin. lia.
  - rewrite <- F2R_Zabs. unfold F2R; cbn [Fnum Fexp].
    apply Rle_lt_trans with (bpow radix2 52 * bpow radix2 900).
    + apply Rmult_le_compat_r; [apply bpow_ge_0|]. rewrite <- (IZR_Zpower radix2 52) by lia. apply IZR_le. exact Hk.
    + rewrite <- bpow_plus. apply bpow_lt. lia.
Qed.

(** finite, of magnitude at most 2^900 *)
Definition moderate (x : f64) : Prop := exists r, fval x = XFin r /\ Rabs r <= bpow radix2 900.

Definition f64_ok (o : op f64) : Prop :=
  match o with
  | Add x => moderate x
  | AddBuf l => Forall moderate l
  | Quant v => fisnan v = false
  | Val q => exists r, fval q = XFin r /\ 0 <= r <= 1
  end.

Theorem td_f64_total (cfg : tcfg f64) (Hlib : lib_ok cfg) ops : Forall f64_ok ops -> (Z.of_nat (length (items_of ops)) <= 2 ^ 52)%Z ->
  always (fun r => d_count (t_digest cfg) (fst r) = Ret (Z.of_nat (length (items_of ops))) /\
                   (forall v, fisnan v = false -> exists a, d_est_q (t_digest cfg) (fst r) v = Ret (fst r, a)) /\
                   (forall q p, fval q = XFin p -> 0 <= p <= 1 -> exists a, d_est_v (t_digest cfg) (fst r) q = Ret (fst r, a)))
    (exec (t_digest cfg) td_new ops).
Proof.
  intros Hok Hn.
  assert (Forall (td_ok_op (bpow radix2 900)) ops) as Hok'.
  { eapply Forall_impl; [|exact Hok]. intros [x|l|v|q]; cbn; auto. }
  pose proof (@td_history_total f64 f64_ops f64_laws cfg Hlib (bpow radix2 900) (2 ^ 52)
    (fun k H => f64_scaled_exact k H) ltac:(repeat split; discriminate) ops Hok' Hn) as HT.
  eapply always_mono; [exact HT|]. intros [s l] [Hh Hb]; cbn [fst] in *.
  assert (Z.of_nat (length (items_of ops)) <= 2 ^ 53)%Z as Hn' by (apply Z.le_trans with (1 := Hn); discriminate).
  split; [|split].
  - apply (holds_count Hh); auto.
  - intros v Hv. destruct (@td_est_q_total f64 _ _ s v Hv) as [a Ha].
    { eapply Forall_impl; [|exact Hb]. intros c. apply bnd_nn. }
    exists a. cbn [d_est_q t_digest]. rewrite Ha. reflexivity.
  - intros q p Hq Hp. destruct (@td_est_v_total f64 _ f64_laws s _ q p Hh) as [a Ha]; auto.
    { change (2 * Z.of_nat (length (items_of ops)) <= 2 ^ 53)%Z. change (2 ^ 53)%Z with (2 * 2 ^ 52)%Z. lia. }
    exists a. cbn [d_est_v t_digest]. rewrite Ha. reflexivity.
Qed.

(* ------------------------------------------------------------------ *)
(** ** Exact arithmetic *)
Section Exact.
  Variable cfg : tcfg xr.
  Hypothesis Hlib : lib_ok cfg.
  Notation D := (t_digest cfg).
  Variables (ops : list (op xr)) (rs : list R).
  Hypothesis Hits : items_of ops = map XFin rs.

  Theorem td_exact_mass :
    whenever (fun r => exists l, listed (fst r) l /\ sumR (map snd l) = INR (length rs) /\ sumR (map (fun p => fst p * snd p) l) = sumR rs)
      (exec D td_new ops).
  Proof.
    eapply whenever_mono; [apply (td_exec_exact Hlib ops rs Hits)|]. intros [s ans] [(-> & Hc & _)|(_ & cs & lo & hi & HI)]; cbn [fst] in *.
    - exists []. repeat split; auto.
    - exists cs. split; [exact (ti_cs HI)|]. split; [exact (ti_wt HI)|exact (ti_sum HI)].
  Qed.

  Theorem td_exact_shape : rs <> [] ->
    whenever (fun r => exists l mn mx, listed (fst r) l /\ l <> [] /\ t_min (fst r) = XFin mn /\ t_max (fst r) = XFin mx /\
        leastR rs mn /\ mostR rs mx /\
        StronglySorted (fun a b => fst a <= fst b) l /\
        Forall (fun p => mn <= fst p <= mx /\ exists z, (1 <= z)%Z /\ snd p = IZR z) l)
      (exec D td_new ops).
  Proof.
    intros Hne. eapply whenever_mono; [apply (td_exec_exact Hlib ops rs Hits)|]. intros [s ans] [(-> & _)|(_ & cs & lo & hi & HI)]; [congruence|]; cbn [fst] in *.
    exists cs, lo, hi. split; [exact (ti_cs HI)|]. split; [exact (ti_ne HI)|]. split; [exact (ti_min HI)|]. split; [exact (ti_max HI)|].
    split; [exact (ti_lo HI)|]. split; [exact (ti_hi HI)|]. split; [exact (ti_sorted HI)|].
    pose proof (ti_rng HI) as A. pose proof (ti_heavy HI) as B. rewrite Forall_forall in *. intros p Hp. split; auto. apply (B p Hp).
  Qed.

  Theorem td_exact_count : (Z.of_nat (length rs) < 2 ^ 64)%Z ->
    whenever (fun r => d_count D (fst r) = Ret (Z.of_nat (length rs))) (exec D td_new ops).
  Proof.
    intros Hn. eapply whenever_mono; [apply (td_exec_exact Hlib ops rs Hits)|]. intros [s ans] [(-> & Hc & _)|(_ & cs & lo & hi & HI)]; cbn [fst] in *.
    - cbn [d_count t_digest]. unfold td_count, total_weight, sum_weights. rewrite Hc. cbn [map].
      assert (ftoZ (fsum64 (@nil xr)) = Some (Ztrunc 0)) as ->.
      { cbn. rewrite Rlt_bool_true, Rlt_bool_true by lra. reflexivity. }
      cbn [unwrap length]. rewrite Ztrunc_floor by lra. change 0 with (IZR 0). rewrite Zfloor_IZR. reflexivity.
    - cbn [d_count t_digest]. unfold td_count. rewrite (total_emb HI), (ti_wt HI), INR_IZR_INZ.
      assert (ftoZ (XFin (IZR (Z.of_nat (length rs)))) = Some (Z.of_nat (length rs))) as ->; [|reflexivity].
      assert (0 <= IZR (Z.of_nat (length rs)) < IZR (2 ^ 64)) as [A B].
      { split; [apply IZR_le; lia|apply IZR_lt; auto]. }
      cbn [ftoZ xr_ops xtoZ]. rewrite Rlt_bool_true by lra. rewrite Rlt_bool_true by exact B. cbn [andb]. f_equal. rewrite Ztrunc_floor by lra.
      apply Zfloor_IZR.
  Qed.

  Theorem td_exact_ends : rs <> [] ->
    whenever (fun r => exists mn mx, leastR rs mn /\ mostR rs mx /\ t_min (fst r) = XFin mn /\ t_max (fst r) = XFin mx /\
        d_est_v D (fst r) f0 = Ret (fst r, XFin mn) /\ d_est_v D (fst r) f1 = Ret (fst r, XFin mx))
      (exec D td_new ops).
  Proof.
    intros Hne. eapply whenever_mono; [apply (td_exec_exact Hlib ops rs Hits)|]. intros [s ans] [(-> & _)|(_ & cs & lo & hi & HI)]; [congruence|]; cbn [fst] in *.
    exists lo, hi. split; [exact (ti_lo HI)|]. split; [exact (ti_hi HI)|]. split; [exact (ti_min HI)|]. split; [exact (ti_max HI)|].
    pose proof (posint_ge (Wt_posint (ti_heavy HI) (ti_ne HI))) as HT.
    destruct (last_weight HI (ti_ne HI)) as (L1 & L2 & L3 & L4 & L5). apply posint_ge in L1, L2.
    cbn [d_est_v t_digest]. unfold td_est_v. cbv zeta. rewrite (total_emb HI), xf0, xf1, xf2, !xmul_fin, Rmult_0_r, Rmult_1_r.
    rewrite (proj2 (xlt_b 0 1)) by lra. split; [rewrite (ti_min HI); reflexivity|].
    rewrite (proj2 (xlt_f _ 1)) by lra. rewrite (ti_cs HI).
    destruct cs as [|c cs]; [destruct (ti_ne HI); auto|]. cbn [map head unwrap bind emb weight].
    assert (snd c <= Wt (c :: cs)) as Hc.
    { rewrite Wt_cons. pose proof (Wt_nonneg (Forall_inv_tail (ti_heavy HI))). lra. }
    rewrite (@xdiv_fin (snd c) 2) by lra. rewrite (proj2 (xlt_f (Wt (c :: cs)) (snd c / 2))) by (cbn in L2; lra). rewrite andb_false_r.
    rewrite xsub_fin. rewrite (proj2 (xgt_b _ (Wt (c :: cs) - 1))) by lra. rewrite (ti_max HI). reflexivity.
  Qed.

  (** [q v] is the quantile answer to a finite or infinite query *)
  Theorem td_exact_q_range : rs <> [] ->
    whenever (fun r => forall v, v <> XNaN ->
        exists a, d_est_q D (fst r) v = Ret (fst r, XFin a) /\ 0 <= a <= 1 /\
          ((forall x, In x rs -> xlt v (XFin x)) -> a = 0) /\ ((forall x, In x rs -> xlt (XFin x) v) -> a = 1))
      (exec D td_new ops).
  Proof.
    intros Hne. eapply whenever_mono; [apply (td_exec_exact Hlib ops rs Hits)|]. intros [s ans] [(-> & _)|(_ & cs & lo & hi & HI)]; [congruence|]; cbn [fst] in *.
    intros v Hv.
    pose proof (posint_ge (Wt_posint (ti_heavy HI) (ti_ne HI))) as HT. pose proof (lo_hi HI) as Hlh.
    assert (t_centroids s <> []) as Hc.
    { rewrite (ti_cs HI). pose proof (ti_ne HI). destruct cs; [congruence|discriminate]. }
    cbn [d_est_q t_digest]. destruct v as [|sg|v]; [congruence| |].
    - destruct sg.
      + exists 0. rewrite (@td_est_q_below xr _ s (XInf true) Hc); [|rewrite (ti_min HI); reflexivity].
        cbn [bind]. rewrite xf0. split; [reflexivity|]. split; [lra|]. split; auto.
        intros H. specialize (H _ (proj1 (ti_lo HI))). discriminate.
      + exists 1. rewrite (@td_est_q_above xr _ (xr_laws (Z.le_refl 4096)) s (XInf false) Hc).
        * cbn [bind]. rewrite xf1. split; [reflexivity|]. split; [lra|]. split; auto.
          intros H. specialize (H _ (proj1 (ti_lo HI))). discriminate.
        * rewrite (ti_min HI), (ti_max HI). apply xle_b. exact Hlh.
        * rewrite (ti_max HI). reflexivity.
    - rewrite (est_q_value HI). pose proof (rq_range HI v) as HR. exists (rq cs lo hi v / Wt cs). cbn [bind].
      split; [reflexivity|]. split; [apply div_between; lra|]. split.
      + intros H. specialize (H _ (proj1 (ti_lo HI))). unfold xlt in H. cbn in H. injection H as H. apply Rcompare_Lt_inv in H.
        unfold rq. destruct (Rlt_dec v lo); [field; lra|lra].
      + intros H. specialize (H _ (proj1 (ti_hi HI))). unfold xlt in H. cbn in H. injection H as H. apply Rcompare_Lt_inv in H.
        unfold rq. destruct (Rlt_dec v lo); [lra|]. destruct (Rlt_dec hi v); [field; lra|lra].
  Qed.

  Theorem td_exact_q_mono : rs <> [] ->
    whenever (fun r => exists l first last mn mx, listed (fst r) l /\ head l = Some first /\ last_error l = Some last /\
        leastR rs mn /\ mostR rs mx /\
        forall v w, v <= w ->
          (fst first = mn \/ 2 <= snd first \/ fst first <= v) -> (fst last = mx \/ (2 <= snd last /\ v <> fst last) \/ w <= fst last) ->
          exists a b, d_est_q D (fst r) (XFin v) = Ret (fst r, XFin a) /\ d_est_q D (fst r) (XFin w) = Ret (fst r, XFin b) /\ a <= b)
      (exec D td_new ops).
  Proof.
    intros Hne. eapply whenever_mono; [apply (td_exec_exact Hlib ops rs Hits)|]. intros [s ans] [(-> & _)|(_ & cs & lo & hi & HI)]; [congruence|]; cbn [fst] in *.
    pose proof (posint_ge (Wt_posint (ti_heavy HI) (ti_ne HI))) as HT.
    exists cs, (headc cs), (lastc cs), lo, hi. split; [exact (ti_cs HI)|].
    split; [pose proof (ti_ne HI); destruct cs; [congruence|reflexivity]|]. split; [apply cs_last; exact (ti_ne HI)|].
    split; [exact (ti_lo HI)|]. split; [exact (ti_hi HI)|].
    intros v w Hvw H1 H2. cbn [d_est_q t_digest]. rewrite !(est_q_value HI). cbn [bind].
    do 2 eexists. split; [reflexivity|]. split; [reflexivity|].
    unfold Rdiv. apply Rmult_le_compat_r; [apply Rlt_le, Rinv_0_lt_compat; lra|].
    assert (mono_low cs lo \/ fst (headc cs) <= v) as HL by (unfold mono_low; tauto).
    destruct H2 as [H2|[H2|H2]]; [| |now apply (rq_mono HI)]; apply (rq_mono_full HI); auto; unfold mono_high; auto.
  Qed.

  (** away from the branch [1 < n*q' <= w_last/2], q' = 1 - q *)
  Definition clear_last (last : R * R) (q : R) : Prop :=
    snd last = 1 \/ INR (length rs) * q < INR (length rs) - snd last / 2 \/ INR (length rs) - 1 < INR (length rs) * q.

  Theorem td_exact_v : rs <> [] -> (Z.of_nat (length rs) < 2 ^ 64)%Z ->
    whenever (fun r => exists l last mn mx, listed (fst r) l /\ last_error l = Some last /\ leastR rs mn /\ mostR rs mx /\
        (forall q, 0 <= q <= 1 -> clear_last last q -> exists a, d_est_v D (fst r) (XFin q) = Ret (fst r, XFin a) /\ mn <= a <= mx) /\
        (forall q q', 0 <= q -> q <= q' -> q' <= 1 -> clear_last last q -> clear_last last q' ->
           exists a b, d_est_v D (fst r) (XFin q) = Ret (fst r, XFin a) /\ d_est_v D (fst r) (XFin q') = Ret (fst r, XFin b) /\ a <= b) /\
        (forall q, 0 <= q <= 1 -> ~ clear_last last q ->
           (snd last = 2 /\ d_est_v D (fst r) (XFin q) = Ret (fst r, XNaN)) \/
           exists a, d_est_v D (fst r) (XFin q) = Ret (fst r, XFin a) /\ mx - 1 <= a <= mx))
      (exec D td_new ops).
  Proof.
    intros Hne Hn. eapply whenever_mono; [apply (td_exec_exact Hlib ops rs Hits)|]. intros [s ans] [(-> & _)|(_ & cs & lo & hi & HI)]; [congruence|]; cbn [fst] in *.
    pose proof (posint_ge (Wt_posint (ti_heavy HI) (ti_ne HI))) as HT.
    assert (Wt cs < IZR (2 ^ 64)) as H64. { rewrite (ti_wt HI), INR_IZR_INZ. now apply IZR_lt. }
    assert (forall q, 0 <= q <= 1 -> 0 <= Wt cs * q) as Hnn by (intros; apply Rmult_le_pos; lra).
    exists cs, (lastc cs), lo, hi. split; [exact (ti_cs HI)|].
    split; [apply cs_last; exact (ti_ne HI)|]. split; [exact (ti_lo HI)|]. split; [exact (ti_hi HI)|].
    assert (forall q, clear_last (lastc cs) q <-> clear_of_last cs (Wt cs * q)) as HC.
    { intros q. unfold clear_last, clear_of_last. rewrite <- (ti_wt HI). tauto. }
    split; [|split].
    - intros q Hq Hcl. apply HC in Hcl. cbn [d_est_v t_digest]. rewrite (est_v_value HI Hq H64 Hcl). cbn [bind].
      eexists. split; [reflexivity|]. apply (rv_range HI). auto.
    - intros q q' H1 H2 H3 C1 C2. apply HC in C1, C2. cbn [d_est_v t_digest].
      rewrite (@est_v_value _ _ _ _ HI q ltac:(lra) H64 C1), (@est_v_value _ _ _ _ HI q' ltac:(lra) H64 C2). cbn [bind].
      do 2 eexists. split; [reflexivity|]. split; [reflexivity|]. apply (rv_mono HI); [apply Hnn; lra|].
      apply Rmult_le_compat_l; lra.
    - intros q Hq Hcl. rewrite HC in Hcl. destruct (est_v_last_branch HI Hq Hcl) as (E & H0 & H1).
      cbn [d_est_v t_digest]. rewrite E. cbn [bind]. destruct (Req_EM_T (snd (lastc cs)) 2) as [E2|E2]; [left; auto|right].
      eexists. split; [reflexivity|]. destruct H1 as [H1|H1]; [congruence|]. lra.
  Qed.

  Theorem td_exact_returns : Forall xok ops -> (Z.of_nat (length rs) < 2 ^ 64)%Z ->
    always (fun r => (forall v, v <> XNaN -> exists a, d_est_q D (fst r) v = Ret (fst r, a)) /\
                     (forall q, 0 <= q <= 1 -> exists a, d_est_v D (fst r) (XFin q) = Ret (fst r, a))) (exec D td_new ops).
  Proof.
    intros H Hn. eapply always_mono; [apply (td_exec_returns Hlib rs H Hits Hn)|]. intros [s ans] Hr; cbn [fst] in *. split.
    - intros v Hv. destruct (est_q_returns Hr Hv) as [a Ha]. exists a. cbn [d_est_q t_digest]. rewrite Ha. reflexivity.
    - intros q Hq. destruct (est_v_returns Hr Hq Hn) as [a Ha]. exists a. cbn [d_est_v t_digest]. rewrite Ha. reflexivity.
  Qed.
End Exact.

(* ------------------------------------------------------------------ *)
(** ** A configuration whose library calls are computable: insertion sort, linear search *)
Section Concrete.
  Context {F : Type} {FO : FloatOps F} {FL : FloatLaws F}.
  Definition sort_means (l : list (centroid F)) : list (centroid F) := isort (fun a b => flt (mean a) (mean b)) l.
  Fixpoint find_first (l : list F) (x : F) : nat :=
    match l with [] => 0 | y :: l' => if flt y x then S (find_first l' x) else 0 end.
  Definition plain (scale inv : F -> F -> F -> F) (cf : F) : tcfg F :=
    {| tc_scale := scale; tc_inv := inv; tc_cf := cf; tc_sort := fun _ => sort_means; tc_search := fun _ => find_first |}.

  Lemma sorted_nth {A} (R : A -> A -> Prop) l : StronglySorted R l ->
    forall i j a b, (i < j)%nat -> nth_error l i = Some a -> nth_error l j = Some b -> R a b.
  Proof.
    induction 1 as [|x l Hs IH Hx]; intros i j a b Hij Ha Hb; [destruct i; discriminate|].
    destruct j as [|j]; [lia|]. destruct i as [|i].
    - injection Ha as <-. rewrite Forall_forall in Hx. apply Hx. eapply nth_error_In. exact Hb.
    - eapply (IH i j); eauto. lia.
  Qed.

  Lemma find_first_len l x : (find_first l x <= length l)%nat.
  Proof. induction l as [|y l IH]; cbn; auto. destruct (flt y x); cbn; lia. Qed.

  Lemma plain_ok scale inv cf : lib_ok (plain scale inv cf).
  Proof.
    constructor; cbn [tc_sort tc_search plain].
    - intros n l. symmetry. apply isort_perm.
    - intros n l Hl i j a b Hij Ha Hb.
      refine (sorted_nth (R := fun a b => fle (mean a) (mean b) = true) _ Hij Ha Hb). now apply isort_sorted.
    - intros n l x. apply find_first_len.
    - intros _ l x Hx Hl Hs.
      assert (forall y, In y l -> flt y x = false -> fle x y = true) as Hge.
      { intros y Hy E. rewrite Forall_forall in Hl. specialize (Hl y Hy). destruct (fle_total _ _ Hx Hl) as [H|H]; [auto|congruence]. }
      assert (StronglySorted (fun a b => fle a b = true) l) as Hss.
      { clear -Hs. induction l as [|y l IH]; constructor.
        - apply IH. intros i j a b Hij Ha Hb. apply (Hs (S i) (S j)); auto. lia.
        - apply Forall_forall. intros z Hz. apply In_nth_error in Hz as [k Hk]. apply (Hs 0%nat (S k)); auto. lia. }
      clear Hs.
      split; [|split].
      + clear -FL. revert l. induction l as [|y l IH]; cbn [find_first]; [intros; lia|]. intros i a Hi Ha.
        destruct (flt y x) eqn:E; [|lia]. destruct i as [|i]; [injection Ha as <-; now apply flt_fle|]. apply (IH i); auto. lia.
      + revert Hl Hge Hss. induction l as [|y l IH]; intros Hl Hge Hss i a Hi Ha; [destruct i; discriminate|].
        cbn [find_first] in Hi. destruct (flt y x) eqn:E.
        * destruct i as [|i]; [lia|]. apply (IH (Forall_inv_tail Hl)) with i; auto; [|now inversion Hss|lia]. intros z Hz. apply Hge. now right.
        * assert (fle x y = true) as Hxy by (apply Hge; [now left|auto]).
          destruct i as [|i]; [injection Ha as <-; auto|]. apply fle_trans with y; auto.
          inversion Hss as [|? ? _ Hf]. rewrite Forall_forall in Hf. apply Hf. eapply nth_error_In. exact Ha.
      + revert Hl Hge Hss. induction l as [|y l IH]; intros Hl Hge Hss a Ha E0; [destruct Ha|].
        cbn [find_first]. destruct (flt y x) eqn:E.
        * destruct Ha as [<-|Ha]; [exfalso; unfold flt, feq in *; destruct (fcmp y x) as [[]|]; discriminate|].
          apply (IH (Forall_inv_tail Hl)) with a; auto; [|now inversion Hss]. intros z Hz. apply Hge. now right.
        * exists y. split; [reflexivity|]. apply feq_of_le; [|apply Hge; [now left|auto]].
          destruct Ha as [<-|Ha].
          { unfold feq, fle in *. destruct (fcmp y x) as [[]|]; auto; discriminate. }
          apply fle_trans with a.
          { inversion Hss as [|? ? _ Hf]. rewrite Forall_forall in Hf. now apply Hf. }
          unfold feq, fle in *. destruct (fcmp a x) as [[]|]; auto; discriminate.
  Qed.
End Concrete.
