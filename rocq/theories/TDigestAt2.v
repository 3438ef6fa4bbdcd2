(** The exact answers of a t-digest, for every history. *)
From Coq Require Import List Arith ZArith Lia Bool Permutation Sorted Reals Lra.
From Flocq Require Import Core.
From Verif Require Import Base Floats XReal Digest TDigest Spec FloatFacts History TDigestProofs TDigestProofs2 TDigestExact TDigestExactQ TDigestExactV TDigestHist TDigestTop ScaleFunctions ScaleProofs TDigestScale TDigestAcc TDigestAcc2 TDigestParts TDigestAt.
Set Implicit Arguments.
Local Open Scope R_scope.

(** total weight of a list of centroids, given as (mean, weight) pairs *)
Definition total (l : list (R * R)) : R := sumR (map snd l).

(** [q_is s v a]: asking [s] for the quantile of [v] answers [a] and leaves [s] as it is; [v_is s q x]: the value at [q] *)
Definition q_is (cfg : tcfg xr) (s : tdigest xr) (v a : R) : Prop := d_est_q (t_digest cfg) s (XFin v) = Ret (s, XFin a).
Definition v_is (cfg : tcfg xr) (s : tdigest xr) (q x : R) : Prop := d_est_v (t_digest cfg) s (XFin q) = Ret (s, XFin x).

(** adding [n] single items, all centroids single: the mid-rank of a value counted as LinearDigest does, and the order statistic *)
Definition exact_ranks (cfg : tcfg xr) (s : tdigest xr) (l : list R) : Prop :=
  (forall v, q_is cfg s v ((if Rle_dec (upto v l - below v l) 1 then below v l else (below v l + upto v l) / 2) / size l)).
Definition exact_values (cfg : tcfg xr) (s : tdigest xr) (l : list R) : Prop :=
  (forall q, 0 <= q <= 1 -> exists x, v_is cfg s q x /\ In x l /\ below x l <= size l * q /\ (size l * q < upto x l \/ upto x l = size l)).

Section Top.
  Context {cfg : tcfg xr} (Hlib : lib_ok cfg).
  Variables (ops : list (op xr)) (rs : list R).
  Hypothesis Hits : items_of ops = map XFin rs.
  Notation n := (INR (length rs)).
  Notation D := (t_digest cfg).

  Lemma qis s v a : td_est_q s (XFin v) = Ret (XFin a) -> q_is cfg s v a.
  Proof. intros H. unfold q_is. cbn [d_est_q t_digest]. rewrite H. reflexivity. Qed.
  Lemma vis s q a : td_est_v s (XFin q) = Ret (XFin a) -> v_is cfg s q a.
  Proof. intros H. unfold v_is. cbn [d_est_v t_digest]. rewrite H. reflexivity. Qed.

  Theorem parts_top : whenever (fun r => exists gs, Permutation (concat gs) rs /\ Forall (fun g => g <> []) gs /\
      listed (fst r) (map (fun g => (sumR g / size g, size g)) gs)) (exec D td_new ops).
  Proof. eapply whenever_mono; [apply (td_parts Hlib ops rs Hits)|]. intros [s a] [_ (gs & A & B & C)]. exists gs. auto. Qed.

  Lemma known l s cs lo hi : tinv s rs cs lo hi -> listed s l -> l = cs.
  Proof. intros HI H. symmetry. apply emb_inj. exact (eq_trans (eq_sym (ti_cs HI)) H). Qed.

  Theorem q_at_top : whenever (fun r => forall pre run post v, listed (fst r) (pre ++ run ++ post) ->
      Forall (fun c => fst c < v) pre -> Forall (fun c => fst c = v) run -> Forall (fun c => v < fst c) post ->
      run <> [] -> (2 <= length (pre ++ run ++ post))%nat -> ((2 <= length run)%nat \/ post <> [] \/ total run = 1) ->
      q_is cfg (fst r) v ((total pre + if Req_EM_T (total run) 1 then 0 else total run / 2) / n)) (exec D td_new ops).
  Proof.
    eapply whenever_mono; [apply (td_exec_exact Hlib ops rs Hits)|]. intros [s ans] H pre run post v HL H1 H2 H3 H4 H5 H6. cbn [fst] in *.
    destruct H as [(_ & E & _)|(_ & cs & lo & hi & HI)].
    - exfalso. unfold listed in HL. rewrite E in HL. destruct pre, run; try discriminate. congruence.
    - pose proof (known HI HL) as E. apply qis. rewrite E in H5. exact (@q_at s rs cs lo hi HI pre run post v (eq_sym E) H1 H2 H3 H4 H5 H6).
  Qed.
  Theorem q_last_top : whenever (fun r => forall pre c, listed (fst r) (pre ++ [c]) -> pre <> [] -> Forall (fun d => fst d < fst c) pre -> snd c <> 1 ->
      q_is cfg (fst r) (fst c) ((n - 1 / 2) / n)) (exec D td_new ops).
  Proof.
    eapply whenever_mono; [apply (td_exec_exact Hlib ops rs Hits)|]. intros [s ans] H pre c HL H1 H2 H3. cbn [fst] in *.
    destruct H as [(_ & E & _)|(_ & cs & lo & hi & HI)].
    - exfalso. unfold listed in HL. rewrite E in HL. destruct pre; discriminate.
    - pose proof (known HI HL) as E. apply qis. exact (@q_last s rs cs lo hi HI pre c (eq_sym E) H1 H2 H3).
  Qed.
  Theorem q_between_top : whenever (fun r => forall pre c d post v, listed (fst r) (pre ++ c :: d :: post) -> fst c < v < fst d ->
      let a := total pre + (if Req_EM_T (snd c) 1 then 1 else snd c / 2) in
      let b := total pre + snd c + (if Req_EM_T (snd d) 1 then 0 else snd d / 2) in
      q_is cfg (fst r) v ((a + (b - a) * ((v - fst c) / (fst d - fst c))) / n)) (exec D td_new ops).
  Proof.
    eapply whenever_mono; [apply (td_exec_exact Hlib ops rs Hits)|]. intros [s ans] H pre c d post v HL Hv a b. cbn [fst] in *.
    destruct H as [(_ & E & _)|(_ & cs & lo & hi & HI)].
    - exfalso. unfold listed in HL. rewrite E in HL. destruct pre; discriminate.
    - pose proof (known HI HL) as E. apply qis. rewrite (@q_between s rs cs lo hi HI pre c d post v (eq_sym E) Hv).
      do 3 f_equal. unfold a, b, after, before, total, Wt. ring.
  Qed.
  Theorem q_ends_top : rs <> [] -> whenever (fun r => exists lo hi, leastR rs lo /\ mostR rs hi /\
      (forall v, v < lo -> q_is cfg (fst r) v 0) /\ (forall v, hi < v -> q_is cfg (fst r) v 1) /\
      (forall c, listed (fst r) [c] -> forall v, lo <= v <= hi -> q_is cfg (fst r) v (1 / 2)) /\
      (forall c d post, listed (fst r) (c :: d :: post) -> lo < fst c ->
         q_is cfg (fst r) lo (1 / 2 / n) /\
         forall v, lo < v < fst c -> q_is cfg (fst r) v ((1 + (snd c / 2 - 1) * ((v - lo) / (fst c - lo))) / n)) /\
      (forall pre c d, listed (fst r) (pre ++ [c; d]) -> fst d < hi ->
         q_is cfg (fst r) hi ((n - 1 / 2) / n) /\
         forall v, fst d < v < hi -> q_is cfg (fst r) v ((n - snd d / 2 + (snd d / 2 - 1) * ((v - fst d) / (hi - fst d))) / n)))
    (exec D td_new ops).
  Proof.
    intros Hne. eapply whenever_mono; [apply (td_exec_exact Hlib ops rs Hits)|]. intros [s ans] [(-> & _)|(_ & cs & lo & hi & HI)]; [congruence|]; cbn [fst] in *.
    pose proof (size_pos Hne) as Hs. pose proof (ti_wt HI) as Ew.
    assert (lo <= hi) as Hlh by (apply (ti_lo HI), (proj1 (ti_hi HI))).
    exists lo, hi. split; [exact (ti_lo HI)|]. split; [exact (ti_hi HI)|]. split; [|split; [|split; [|split]]].
    - intros v Hv. apply qis. rewrite (est_q_value HI), Ew. unfold rq. destruct (Rlt_dec v lo); [|lra]. do 2 f_equal. field. lra.
    - intros v Hv. apply qis. rewrite (est_q_value HI). unfold rq. rewrite Ew. destruct (Rlt_dec v lo); [lra|]. destruct (Rlt_dec hi v); [|lra]. do 2 f_equal. field. lra.
    - intros c HL v Hv. pose proof (known HI HL) as E. apply qis. rewrite (est_q_value HI). unfold rq. rewrite Ew. destruct (Rlt_dec v lo); [lra|]. destruct (Rlt_dec hi v); [lra|].
      rewrite <- E. do 2 f_equal. field. lra.
    - intros c d post HL Hc. pose proof (known HI HL) as E. assert (fst c <= hi) as Hch.
      { pose proof (ti_rng HI) as Hr. rewrite <- E in Hr. apply Forall_inv in Hr. lra. }
      split; [|intros v Hv]; apply qis; rewrite (est_q_value HI); unfold rq; rewrite Ew; rewrite <- E; cbn [headc].
      + destruct (Rlt_dec lo lo); [lra|]. destruct (Rlt_dec hi lo); [lra|]. destruct (Rlt_dec lo (fst c)); [|lra]. destruct (Req_EM_T lo lo); [reflexivity|congruence].
      + destruct (Rlt_dec v lo); [lra|]. destruct (Rlt_dec hi v); [lra|]. destruct (Rlt_dec v (fst c)); [|lra]. destruct (Req_EM_T v lo); [lra|]. do 3 f_equal. ring.
    - intros pre c d HL Hd. pose proof (known HI HL) as E.
      assert (lastc (pre ++ [c; d]) = d) as El.
      { assert (pre ++ [c; d] <> []) as Hx by (destruct pre; discriminate). pose proof (cs_last Hx) as H.
        assert (pre ++ [c; d] = (pre ++ [c]) ++ [d]) as Ea by now rewrite <- app_assoc. rewrite Ea, last_error_app in H. rewrite Ea. now injection H. }
      assert (fst (headc (pre ++ [c; d])) <= fst d /\ lo <= fst d) as [Hh Hl].
      { pose proof (ti_rng HI) as Hr. pose proof (ti_sorted HI) as Ho. rewrite <- E in Hr, Ho. rewrite Forall_forall in Hr. split; [|apply Hr, in_or_app; right; right; now left].
        assert (In d (pre ++ [c; d])) as Hin by (apply in_or_app; right; right; now left). subst cs. exact (head_le HI _ Hin). }
      assert (exists a b rest, pre ++ [c; d] = a :: b :: rest) as (a & b & rest & Es) by (destruct pre as [|a [|b pre]]; cbn; eauto).
      split; [|intros v Hv]; apply qis; rewrite (est_q_value HI); unfold rq; rewrite Ew; rewrite <- E in *; rewrite El, Es in *.
      + destruct (Rlt_dec hi lo); [lra|]. destruct (Rlt_dec hi hi); [lra|]. destruct (Rlt_dec hi (fst (headc (a :: b :: rest)))); [lra|].
        destruct (Rlt_dec (fst d) hi); [|lra]. destruct (Req_EM_T hi hi); [reflexivity|congruence].
      + destruct (Rlt_dec v lo); [lra|]. destruct (Rlt_dec hi v); [lra|]. destruct (Rlt_dec v (fst (headc (a :: b :: rest)))); [lra|].
        destruct (Rlt_dec (fst d) v); [|lra]. destruct (Req_EM_T v hi); [lra|]. do 3 f_equal. field. lra.
  Qed.

  Theorem v_between_top : (Z.of_nat (length rs) < 2 ^ 64)%Z -> whenever (fun r => forall pre c d post q, listed (fst r) (pre ++ c :: d :: post) ->
      0 <= q <= 1 -> 1 <= n * q <= n - 1 -> let a := total pre + snd c / 2 in let b := total pre + snd c + snd d / 2 in
      (a <= n * q < a + 1 / 2 -> v_is cfg (fst r) q (fst c)) /\
      (b - 1 / 2 <= n * q < b -> v_is cfg (fst r) q (fst d)) /\
      (a + 1 / 2 <= n * q < b - 1 / 2 -> v_is cfg (fst r) q (fst c + (fst d - fst c) * ((n * q - (a + 1 / 2)) / (b - a - 1))))) (exec D td_new ops).
  Proof.
    intros Hn. eapply whenever_mono; [apply (td_exec_exact Hlib ops rs Hits)|]. intros [s ans] H pre c d post q HL Hq Ht a b. cbn [fst] in *.
    destruct H as [(_ & E & _)|(_ & cs & lo & hi & HI)].
    - exfalso. unfold listed in HL. rewrite E in HL. destruct pre; discriminate.
    - pose proof (known HI HL) as E. pose proof (@v_between s rs cs lo hi HI pre c d post q (eq_sym E) Hn Hq Ht) as Hv. cbv zeta in Hv.
      pose proof (ti_heavy HI) as Hh. pose proof (ti_sorted HI) as Hso. rewrite <- E in Hh, Hso. apply Forall_app in Hh as [_ Hh]. pose proof (Forall_inv Hh) as Hc. pose proof (Forall_inv (Forall_inv_tail Hh)) as Hd.
      assert (fst c <= fst d) as Hcd.
      { clear -Hso. induction pre as [|z pre IH]; cbn [app] in Hso; apply StronglySorted_inv in Hso as [Hs Hf]; [|auto]. exact (Forall_inv Hf). }
      apply posint_ge in Hc as Hc1, Hd as Hd1.
      destruct (@vbet_line (n * q) a c d Hc Hd Hcd) as (V1 & V2 & V3).
      change (Wt pre + snd c / 2) with a in Hv. replace (a + (snd c + snd d) / 2) with b in * by (unfold a, b; field).
      replace ((snd c + snd d) / 2 - 1) with (b - a - 1) in V3 by (unfold a, b; field).
      assert (1 <= b - a) by (unfold a, b; lra).
      split; [|split]; intros Hin; apply vis; rewrite Hv by lra; do 2 f_equal; [apply V1|apply V2|apply V3]; lra.
  Qed.
  Theorem v_low_top : (Z.of_nat (length rs) < 2 ^ 64)%Z -> rs <> [] -> whenever (fun r => exists lo hi, leastR rs lo /\ mostR rs hi /\
      (forall q, 0 <= q <= 1 -> n * q < 1 -> v_is cfg (fst r) q lo) /\
      (forall q, 0 <= q <= 1 -> 1 <= n * q -> n - 1 < n * q -> v_is cfg (fst r) q hi) /\
      (forall c d post q, listed (fst r) (c :: d :: post) -> 0 <= q <= 1 -> 1 <= n * q < snd c / 2 ->
         v_is cfg (fst r) q (lo + (fst c - lo) * ((n * q - 1) / (snd c / 2 - 1))))) (exec D td_new ops).
  Proof.
    intros Hn Hne. eapply whenever_mono; [apply (td_exec_exact Hlib ops rs Hits)|]. intros [s ans] [(-> & _)|(_ & cs & lo & hi & HI)]; [congruence|]; cbn [fst] in *.
    pose proof (ti_wt HI) as Ew. pose proof (posint_ge (Wt_posint (ti_heavy HI) (ti_ne HI))) as HT.
    assert (Wt cs < IZR (2 ^ 64)) as H64. { rewrite Ew, INR_IZR_INZ. now apply IZR_lt. }
    assert (snd (lastc cs) <= Wt cs /\ 1 <= snd (lastc cs)) as Hlw.
    { pose proof (last_error_In _ (cs_last (ti_ne HI))) as Hin. apply in_split in Hin as (u & w & Eu). pose proof (ti_heavy HI) as Hh. rewrite Eu in Hh. apply Forall_app in Hh as [Hu Hh].
      pose proof (Forall_inv Hh) as Hc. pose proof (Forall_inv_tail Hh) as Hw. apply posint_ge in Hc.
      assert (forall l, Forall heavy l -> 0 <= Wt l) as Hp. { clear. induction 1 as [|c l Hc H IH]; [cbn; lra|]. rewrite Wt_cons. apply posint_ge in Hc. lra. }
      split; [|exact Hc]. rewrite Eu at 2. rewrite Wt_app, Wt_cons. pose proof (Hp _ Hu). pose proof (Hp _ Hw). lra. }
    exists lo, hi. split; [exact (ti_lo HI)|]. split; [exact (ti_hi HI)|]. split; [|split].
    - intros q Hq Ht. apply vis. destruct (Rlt_dec (Wt cs * q) (Wt cs - snd (lastc cs) / 2)) as [Hc|Hc].
      + rewrite (est_v_value HI Hq H64) by (right; left; exact Hc). unfold rv. rewrite Ew. destruct (Rlt_dec (n * q) 1); [reflexivity|lra].
      + destruct (Rlt_dec (Wt cs - 1) (Wt cs * q)) as [Hc2|Hc2].
        * rewrite (est_v_value HI Hq H64) by (right; right; exact Hc2). unfold rv. rewrite Ew. destruct (Rlt_dec (n * q) 1); [reflexivity|lra].
        * rewrite Ew in *. assert (n < 2) by lra. exfalso. assert (n = 1) as E1. { change 2 with (INR 2) in H. apply INR_lt in H. pose proof (size_pos Hne) as H9. change 1 with (INR 1) in H9. apply INR_le in H9. replace (length rs) with 1%nat by lia. reflexivity. }
          rewrite E1 in *. lra.
    - intros q Hq Ht1 Ht. apply vis. rewrite (est_v_value HI Hq H64) by (right; right; rewrite Ew; exact Ht). unfold rv. rewrite Ew.
      destruct (Rlt_dec (n * q) 1) as [Hz|Hz]; [lra|]. destruct (Rlt_dec (n * q) (snd (headc cs) / 2)) as [Hx|Hx]; [exfalso|destruct (Rlt_dec (n - 1) (n * q)); [reflexivity|lra]].
      assert (snd (headc cs) <= n).
      { rewrite <- Ew. pose proof (ti_heavy HI) as Hh. pose proof (ti_ne HI). destruct cs as [|c cs']; [congruence|]. cbn [headc]. rewrite Wt_cons.
        assert (forall l, Forall heavy l -> 0 <= Wt l) as Hp. { clear. induction 1 as [|c l Hc H IH]; [cbn; lra|]. rewrite Wt_cons. apply posint_ge in Hc. lra. }
        pose proof (Hp _ (Forall_inv_tail Hh)). lra. }
      assert (n < 2) as H2 by lra. change 2 with (INR 2) in H2. apply INR_lt in H2. pose proof (size_pos Hne) as H9. change 1 with (INR 1) in H9. apply INR_le in H9.
      assert (n = 1) as E1 by (replace (length rs) with 1%nat by lia; reflexivity). rewrite E1 in *. lra.
    - intros c d post q HL Hq Ht. pose proof (known HI HL) as E. apply vis.
      assert (snd c + snd d <= n /\ snd c + snd (lastc cs) <= n) as [H1 H2].
      { assert (forall l, Forall heavy l -> 0 <= Wt l) as Hp. { clear. induction 1 as [|z l Hc H IH]; [cbn; lra|]. rewrite Wt_cons. apply posint_ge in Hc. lra. }
        pose proof (ti_heavy HI) as Hh. rewrite <- E in Hh. pose proof (Forall_inv_tail Hh) as Hh'. pose proof (Hp _ (Forall_inv_tail Hh')) as P0. rewrite <- Ew, <- E.
        split; [rewrite !Wt_cons; lra|]. rewrite Wt_cons. apply Rplus_le_compat_l.
        assert (d :: post <> []) as Hx by discriminate. pose proof (last_error_In _ (cs_last Hx)) as Hin. change (lastc (c :: d :: post)) with (lastc (d :: post)).
        set (L := lastc (d :: post)) in *. clearbody L. apply in_split in Hin as (u & w & Eu). rewrite Eu in Hh' |- *. apply Forall_app in Hh' as [Hu Hh'']. rewrite Wt_app, Wt_cons. pose proof (Hp _ Hu). pose proof (Hp _ (Forall_inv_tail Hh'')). lra. }
      rewrite (est_v_value HI Hq H64) by (right; left; rewrite Ew; lra). unfold rv. rewrite Ew. rewrite <- E. cbn [headc].
      destruct (Rlt_dec (n * q) 1) as [Hz|Hz]; [lra|]. destruct (Rlt_dec (n * q) (snd c / 2)); [|lra]. do 3 f_equal. ring.
  Qed.

  (** all centroids single *)
  Lemma singles s gs : Permutation (concat gs) rs -> Forall (fun g => g <> []) gs -> listed s (map gcen gs) ->
    (forall c, In c (t_centroids s) -> weight c = XFin 1) -> exists xs, map gcen gs = map ucen xs /\ Permutation xs rs.
  Proof.
    intros H1 H2 H3 H4. exists (concat gs). split; [|exact H1]. unfold listed in H3. rewrite H3 in H4. clear H1 H3 Hits.
    induction H2 as [|g gs Hg H2 IH]; [reflexivity|]. cbn [map concat]. rewrite map_app.
    assert (size g = 1) as E. { specialize (H4 _ (or_introl eq_refl)). cbn in H4. now injection H4. }
    destruct g as [|x [|y g]]; [congruence| |exfalso; change 1 with (INR 1) in E; apply INR_eq in E; cbn [length] in E; lia].
    rewrite gcen_single. cbn [map app]. f_equal. apply IH. intros c Hc. apply H4. now right.
  Qed.
  Theorem single_top : whenever (fun r => (forall c, In c (t_centroids (fst r)) -> weight c = XFin 1) ->
      ((2 <= length rs)%nat -> exact_ranks cfg (fst r) rs) /\ (rs <> [] -> (Z.of_nat (length rs) < 2 ^ 64)%Z -> exact_values cfg (fst r) rs)) (exec D td_new ops).
  Proof.
    eapply whenever_mono; [apply (td_parts Hlib ops rs Hits)|]. intros [s ans] [H (gs & A & B & C)] Hw. cbn [fst] in *.
    destruct H as [(-> & _)|(Hne & cs & lo & hi & HI)]; [cbn; split; [lia|congruence]|].
    destruct (singles A B C Hw) as (xs & E & HP). pose proof (known HI C) as Ec. rewrite E in Ec. subst cs.
    split; [intros H2 v; apply qis, (single_q HI HP v H2)|]. intros _ Hn q Hq. destruct (single_v HI HP Hn Hq) as (x & E1 & E2 & E3 & E4).
    exists x. split; [now apply vis|]. split; [exact E2|]. split; [exact E3|]. destruct E4 as [E4| ->]; [now left|right]. apply upto_all. exact (proj2 (ti_hi HI)).
  Qed.
End Top.
