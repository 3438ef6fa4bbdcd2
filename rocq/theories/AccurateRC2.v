(** RCSketch2 as an accurate digest in exact arithmetic. *)
From Coq Require Import List Arith ZArith NArith Lia Bool Reals Lra.
From Verif Require Import Base Floats XReal Digest Spec FloatFacts History LinearProofs WrapProofs.
From Verif Require Import ParallelProofs TDigestExact TDigestHist TDigestAcc TDigestAcc2 TDigestDrift.
From Verif Require Import TDigest RCSketch RCProofs RCHist RCRank RCExpect RCTop RCQuery RCObs RCObs2 RCRelTop RCValue RC2 RC2Sections RC2Proofs RC2Hist RC2Rank RC2Top RC2Value RCSym Accurate AccuratePar AccurateTop AccurateRC.
Set Implicit Arguments.
Set Universe Polymorphism.
Unset Universe Minimization ToSet.
Local Open Scope R_scope.

Section RC2.
  Variable B : Z.
  Hypothesis HB : (4096 <= B)%Z.
  Local Instance FLr2 : FloatLaws xr := xr_laws HB.
  Variables (extra : nat) (k : N) (n o h : nat).
  Hypothesis Hk : k_ok k.
  Hypothesis Hf : fewer k n.
  Hypothesis Hu : (N.of_nat n <= N.of_nat (min_sec k) * u32_max)%N.
  Hypothesis Ho1 : Nat.odd o = true.
  Hypothesis Ho2 : (o <= min_sec k + 1)%nat.
  Hypothesis Hh : ((o + 1) ^ h * n < 6 * N.to_nat k * (2 * o) ^ h)%nat.
  Hypothesis Hi : INR n + err2 k o h n <= IZR B.
  Notation D := (@rc2_digest xr _ extra).

  Definition reached2 (s : rc2 xr) (its : list xr) : Prop := exists ops, default_mode ops /\ ritems_of ops = its /\ returns (rc2_run extra k ops) s.
  Definition rc2_inv (s : rc2 xr) (its : list xr) : Prop := reached2 s its /\ @inv2 xr _ k s its /\ no_nan its /\ (length its <= n)%nat.

  Lemma fewer_le N : (N <= n)%nat -> fewer k N.
  Proof using Hf Hh Ho2 Hu. intros H. destruct Hf as [H1|[H1 H2]]; [left; lia|right; split; [exact H1|lia]]. Qed.

  Lemma rexec2_app ops1 ops2 : forall s : rc2 xr, rexec2 extra s (ops1 ++ ops2) = bind (rexec2 extra s ops1) (fun s' => rexec2 extra s' ops2).
  Proof.
    unfold rexec2. induction ops1 as [|o0 ops1 IH]; intros s; [reflexivity|]. cbn [app foldM]. rewrite bind_assoc. apply bind_ext. intros s'. apply IH.
  Qed.
  Lemma reached2_step s its o0 : rc2_inv s its -> rfast o0 = false -> rmeth o0 = Default -> no_nan (ritems o0) -> (length its + length (ritems o0) <= n)%nat ->
    always (fun s' => rc2_inv s' (its ++ ritems o0)) (rstep2 extra s o0).
  Proof using HB Hk Hf Hu Ho1 Ho2 Hh Hi.
    intros (HR & HI & Hn & Hl) H1 H2 H3 H4.
    assert (always (fun s' => @inv2 xr _ k s' (its ++ ritems o0)) (rstep2 extra s o0)) as HA.
    { apply (@inv2_step xr _ FLr2 extra k s its o0); auto. eapply N.le_trans; [|exact Hu]. lia. }
    assert (always (fun _ => True) (rstep2 extra s o0)) as HT by (eapply always_mono; [exact HA|auto]).
    eapply always_mono; [apply always_and; [exact HA|apply always_returns_self, HT]|]. intros s' [H5 H6].
    split; [|split; [exact H5|split; [now apply Forall_app|now rewrite app_length]]].
    destruct HR as (ops & D1 & D2 & D3). exists (ops ++ [o0]). split; [apply Forall_app; split; [exact D1|repeat constructor; auto]|]. split.
    - now rewrite ritems_of_snoc, D2.
    - unfold rc2_run in *. rewrite rexec2_app. eapply returns_bind; [exact D3|]. unfold rexec2. cbn [foldM]. eapply returns_bind; [exact H6|reflexivity].
  Qed.

  Notation e N := (err2 k o h N).
  Lemma err2_scaled N : e N = INR o * ((1 + / INR o) ^ (h + 1) - 1) / INR (min_sec k) * INR N.
  Proof. unfold err2, Rdiv. ring. Qed.
  Lemma err2_coeff : 0 <= INR o * ((1 + / INR o) ^ (h + 1) - 1) / INR (min_sec k).
  Proof using Hk Ho1.
    assert (0 < INR (min_sec k)) as H1 by (apply lt_0_INR; exact (min_sec_ge Hk)).
    assert (1 <= INR o) as H2 by (apply (le_INR 1); clear -Ho1; destruct o; [discriminate|lia]).
    apply Rmult_le_pos; [|apply Rlt_le, Rinv_0_lt_compat, H1]. apply Rmult_le_pos; [lra|].
    assert (0 <= / INR o)%R by (apply Rlt_le, Rinv_0_lt_compat; lra). pose proof (pow_R1_Rle (1 + / INR o) (h + 1) ltac:(lra)). lra.
  Qed.

  Lemma rc2_good s its q : rc2_inv s its -> its <> [] -> 0 <= q <= 1 ->
    (length (r2_levels s) <= 31)%nat /\ r2_count s = Z.of_nat (length its) /\
    (forall v, Rabs (INR (rank2 (r2_levels s) v) - INR (n_le its v)) <= e (length its)) /\
    exists x, rc2_est_value s (XFin q) = Ret x /\ In x its /\
      INR (n_lt its x) - e (length its) <= q * INR (length its) <= INR (n_le its x) + 2 * e (length its).
  Proof using HB Hk Hf Hu Ho1 Ho2 Hh Hi.
    intros ((ops & Hm & Hits & Hret) & HI & Hn & Hl) Hne Hq. subst its.
    assert (proper2 k ops) as Hp by (split; [exact Hk|]; right; eapply N.le_trans; [|exact Hu]; lia).
    assert ((o + 1) ^ h * length (ritems_of ops) < 6 * N.to_nat k * (2 * o) ^ h)%nat as Hh'.
    { eapply Nat.le_lt_trans; [|exact Hh]. apply Nat.mul_le_mono_l. exact Hl. }
    assert (INR (length (ritems_of ops)) + e (length (ritems_of ops)) <= IZR B) as Hi'.
    { eapply Rle_trans; [|exact Hi]. pose proof err2_coeff. apply le_INR in Hl. rewrite !err2_scaled. nra. }
    assert (@fewer k (length (ritems_of ops))) as Hf' by (apply fewer_le; exact Hl).
    destruct (@value2_state xr _ FLr2 extra k ops (XFin q) q o h Hp Hm Hn Hf' Hne Ho1 Ho2 Hh' Hi' eq_refl Hq) as (t & Ht & _ & HA).
    pose proof (@always_returns _ _ _ _ HA Hret) as (_ & _ & _ & G & _).
    destruct HI as (_ & HS & Hc & _).
    split; [destruct HS as (_ & _ & _ & HF & _); eapply short_31; eauto|]. split; [exact Hc|]. split; [exact G|].
    destruct (@value2_error xr _ FLr2 extra k ops (XFin q) q o h Hp Hm Hn Hf' Hne Ho1 Ho2 Hh' Hi' eq_refl Hq) as (t' & Ht' & HV).
    unfold value_after2 in HV. rewrite always_bind_iff in HV. pose proof (@always_returns _ _ _ _ HV Hret) as HV'. cbn beta in HV'.
    pose proof (@always_returns _ _ _ _ HA Hret) as (_ & _ & _ & _ & x & E & HIn & _). rewrite E in HV'. cbn [always] in HV'.
    exists x. split; [exact E|]. split; [exact HIn|]. destruct HV' as (_ & HE & _).
    change (XFin (q * IZR (Z.of_nat (length (ritems_of ops)))) = XFin t') in Ht'. injection Ht' as <-. rewrite <- INR_IZR_INZ in HE. exact HE.
  Qed.

  Lemma rc2_quantile s its v : rc2_inv s its -> its <> [] ->
    exists a, rc2_est_quantile s v = Ret (XFin a) /\ Rabs (INR (length its) * a - INR (n_le its v)) <= e (length its).
  Proof using HB Hk Hf Hu Ho1 Ho2 Hh Hi.
    intros HI Hne. assert (0 <= 0 <= 1) as H0 by lra. destruct (@rc2_good s its 0 HI Hne H0) as (H1 & H2 & H3 & _).
    assert (0 < INR (length its)) as Hs by (apply lt_0_INR; destruct its; [congruence|cbn; lia]).
    unfold rc2_est_quantile, rc_est_quantile.
    rewrite interpolate_rank_val by (unfold as_rc; cbn [rc_levels]; rewrite map_length; eapply Nat.le_trans; [exact H1|apply Nat.leb_le; reflexivity]). cbn [bind].
    unfold as_rc. cbn [rc_count rc_levels]. rewrite H2. cbn [fdiv fofZ xr_ops xdiv]. rewrite <- !INR_IZR_INZ.
    unfold rsign at 1. rewrite Raux.Rcompare_Gt by exact Hs.
    eexists. split; [reflexivity|]. specialize (H3 v). unfold rank2, plain in H3.
    match goal with |- Rabs (?b * (?a / ?b) - _) <= _ => replace (b * (a / b)) with a by (field; lra) end. exact H3.
  Qed.

  Definition rc2_fine (its : list xr) (o0 : op xr) : Prop := @rc_fine n its o0.
  Lemma rc2_step s its o0 : rc2_inv s its -> rc2_fine its o0 -> always (fun r => rc2_inv (fst r) (its ++ items_of [o0])) (step D s o0).
  Proof using HB Hk Hf Hu Ho1 Ho2 Hh Hi.
    intros HI (Ho & Hq & Hlen).
    destruct o0 as [x|l|v|q]; cbn [step d_add d_add_buffer rc2_digest items_of app is_query] in *.
    - eapply always_bind; [apply (@reached2_step s its (RAdd x)); auto; repeat constructor; destruct Ho as [r ->]; reflexivity|].
      intros s' Hs'. exact Hs'.
    - rewrite app_nil_r in *. eapply always_bind; [apply (@reached2_step s its (RBuf l)); auto; apply fin_nn, Ho|].
      intros s' Hs'. exact Hs'.
    - cbn [d_est_q rc2_digest]. destruct (@rc2_quantile s its v HI (Hq eq_refl)) as (a & -> & _). cbn [bind always fst]. now rewrite app_nil_r.
    - cbn [d_est_v rc2_digest]. destruct Ho as (r & -> & Hr). destruct (@rc2_good s its r HI (Hq eq_refl) Hr) as (_ & _ & _ & x & -> & _).
      cbn [bind always fst]. now rewrite app_nil_r.
  Qed.
  Lemma rc2_hist ops : fine ops -> (Z.of_nat (length (items_of ops)) <= Z.of_nat n)%Z -> always (fun r => rc2_inv (fst r) (items_of ops)) (exec D (rc2_new k) ops).
  Proof using HB Hk Hf Hu Ho1 Ho2 Hh Hi.
    intros [H1 H2] H3. apply (@exec_always xr D rc2_fine rc2_inv rc2_step ops (rc2_new k) []).
    - split; [exists []; repeat split; constructor|]. split; [|split; [constructor|cbn; lia]].
      unfold inv2. split; [reflexivity|]. split; [apply new_ok; auto; now apply odd3|]. split; [reflexivity|]. split.
      + cbn. exists []. repeat split; auto; try lia; try contradiction. constructor.
      + cbn [length]. lia.
    - apply fine_hist; auto. cbn [length]. lia.
  Qed.

  Definition rc2_share : R := INR o * ((1 + / INR o) ^ (h + 1) - 1) / INR (min_sec k).
  Theorem rc2_rank : rank_accurate D (rc2_new k) (Z.of_nat n) (share rc2_share).
  Proof using HB Hk Hf Hu Ho1 Ho2 Hh Hi.
    split.
    - intros ops Hfi HL. eapply always_mono; [apply (rc2_hist Hfi HL)|auto].
    - intros ops rs v Hfi Hits Hne HL. apply ask_quant. rewrite <- (map_length XFin), <- Hits in HL.
      eapply whenever_mono; [apply always_whenever, (rc2_hist Hfi HL)|]. intros [s al] HI. cbn [fst] in *.
      assert (items_of ops <> []) as Hne' by (rewrite Hits; destruct rs; [congruence|discriminate]).
      destruct (@rc2_quantile s _ (XFin v) HI Hne') as (a & E & Ea).
      cbn [d_est_q rc2_digest]. rewrite E. cbn [bind whenever snd]. exists a. split; [reflexivity|].
      apply Raux.Rabs_le_inv in Ea. rewrite err2_scaled, Hits, map_length, lin_upto in Ea. unfold TDigestAcc2.within, share, rc2_share.
      pose proof (n_le_lt_eq (map XFin rs) (XFin v)) as Hle. apply (f_equal INR) in Hle. rewrite plus_INR, lin_upto, lin_below in Hle.
      pose proof (pos_INR (n_eq (map XFin rs) (XFin v))). lra.
  Qed.
  Theorem rc2_value : value_accurate D (rc2_new k) (Z.of_nat n) (share (2 * rc2_share)).
  Proof using HB Hk Hf Hu Ho1 Ho2 Hh Hi.
    intros ops rs q Hfi Hits Hne HL Hq. apply ask_val. rewrite <- (map_length XFin), <- Hits in HL.
    eapply whenever_mono; [apply always_whenever, (rc2_hist Hfi HL)|]. intros [s al] HI. cbn [fst] in *.
    assert (items_of ops <> []) as Hne' by (rewrite Hits; destruct rs; [congruence|discriminate]).
    destruct (@rc2_good s _ q HI Hne' Hq) as (_ & _ & _ & x & E & HIn & HE).
    cbn [d_est_v rc2_digest]. rewrite E. cbn [bind whenever snd]. rewrite Hits in HIn. apply in_map_iff in HIn as (y & <- & Hy). exists y. split; [reflexivity|].
    rewrite err2_scaled, Hits, map_length, lin_upto, lin_below in HE. unfold TDigestAcc2.within, share, rc2_share.
    pose proof err2_coeff. pose proof (pos_INR (length rs)). nra.
  Qed.
  Theorem rc2_counted : counted D (rc2_new k) (Z.of_nat n).
  Proof using HB Hk Hf Hu Ho1 Ho2 Hh Hi.
    intros ops Hfi HL. eapply whenever_mono; [apply always_whenever, (rc2_hist Hfi HL)|]. intros [s al] (_ & (_ & _ & E & _) & _). cbn [fst] in *.
    cbn [d_count rc2_digest]. now rewrite E.
  Qed.
End RC2.

(** in exact arithmetic no bound on what is exactly representable is needed *)
Lemma xr_room (r : R) : exists B, (4096 <= B)%Z /\ r <= IZR B.
Proof. exists (Z.max 4096 (up r)). split; [apply Z.le_max_l|]. destruct (archimed r) as [H _]. eapply Rle_trans; [apply Rlt_le, H|]. apply IZR_le, Z.le_max_r. Qed.

Lemma rc_share_eq k h m : INR (h * m) / INR k = INR h / INR k * INR m.
Proof. rewrite mult_INR. unfold Rdiv. ring. Qed.

Lemma rc_params_xr (lg : xr -> xr) n k : (1 <= k <= n)%nat -> lg (XFin (INR (n / k))) = XFin (INR (Nat.log2_up (n / k))) ->
  (Z.of_nat (2 * k * Nat.log2_up (n / k)) < 2 ^ 64)%Z -> exists B (HB : (4096 <= B)%Z), (Z.of_nat n <= B)%Z /\ @rc_params xr _ (xr_laws HB) lg n k.
Proof.
  intros [Hk Hkn] Hlg H64.
  destruct (xr_room (INR (n + 2 * k + 2 * k * Nat.log2_up (n / k)))) as (B & HB & HR). rewrite INR_IZR_INZ in HR. apply le_IZR in HR.
  assert (1 <= n / k)%nat as Hj by (apply Nat.div_le_lower_bound; lia). exists B, HB. split; [lia|].
  unfold rc_params. split; [exact Hk|]. split; [|change (@fint xr _ (xr_laws HB)) with B; split; [lia|split; [lia|exact H64]]].
  split; [|intros E0; lia]. intros _. change (@fval xr _ (xr_laws HB) (lg (XFin (IZR (Z.of_nat (n / k))))) = XFin (INR (Nat.log2_up (n / k)))).
  rewrite <- INR_IZR_INZ, Hlg. reflexivity.
Qed.
Lemma rc_starts (lg : xr -> xr) n k : (1 <= k <= n)%nat -> lg (XFin (INR (n / k))) = XFin (INR (Nat.log2_up (n / k))) ->
  (Z.of_nat (2 * k * Nat.log2_up (n / k)) < 2 ^ 64)%Z -> calc_buffer_size lg n k = Ret (spec_size n k) /\ exists s0, rc_new lg n k = Ret s0.
Proof.
  intros H1 H2 H3. destruct (@rc_params_xr lg n k H1 H2 H3) as (B & HB & _ & Hp).
  split; [exact (@calc_size xr _ (xr_laws HB) lg n k Hp)|]. exists (rc_fresh n k). exact (@rc_new_val xr _ (xr_laws HB) lg n k Hp).
Qed.

Theorem rc_accurate (lg : xr -> xr) n k h bs s0 : (1 <= k <= n)%nat -> lg (XFin (INR (n / k))) = XFin (INR (Nat.log2_up (n / k))) ->
  (Z.of_nat (2 * k * Nat.log2_up (n / k)) < 2 ^ 64)%Z -> (N.of_nat (n / k) <= u32_max)%N -> Nat.even k = true ->
  calc_buffer_size lg n k = Ret bs -> (n < bs * 2 ^ h)%nat -> rc_new lg n k = Ret s0 ->
  rank_accurate rc_digest s0 (Z.of_nat n) (share (INR h / INR k)) /\ value_accurate rc_digest s0 (Z.of_nat n) (share (INR h / INR k)) /\
  counted rc_digest s0 (Z.of_nat n).
Proof.
  intros Hk Hlg H64 Hu He Hbs Hh E. destruct (@rc_params_xr lg n k Hk Hlg H64) as (B & HB & Hi & Hp).
  pose proof (@rc_new_val xr _ (xr_laws HB) lg n k Hp) as E'. pose proof (@calc_size xr _ (xr_laws HB) lg n k Hp) as Ebs.
  rewrite Hbs in Ebs. injection Ebs as ->. rewrite E in E'. injection E' as ->.
  pose proof (@rc_rank B HB lg n k h Hp Hu He Hi Hh) as H1. pose proof (@rc_value B HB lg n k h Hp Hu He Hi Hh) as H2. pose proof (@rc_counted B HB lg n k h Hp Hu He Hi Hh) as H3.
  split; [|split; [|exact H3]].
  - refine (@rank_wider _ _ _ _ _ _ H1). intros c q m. unfold rc_error, share. rewrite rc_share_eq. apply Rle_refl.
  - intros ops rs q A1 A2 A3 A4 A5. eapply whenever_mono; [exact (H2 ops rs q A1 A2 A3 A4 A5)|].
    intros r (al & x & X1 & X2). exists al, x. split; [exact X1|]. unfold rc_error in X2. rewrite rc_share_eq in X2. exact X2.
Qed.

Theorem rc2_accurate extra k n o h : k_ok k -> fewer k n -> (N.of_nat n <= N.of_nat (min_sec k) * u32_max)%N -> Nat.odd o = true -> (o <= min_sec k + 1)%nat ->
  ((o + 1) ^ h * n < 6 * N.to_nat k * (2 * o) ^ h)%nat ->
  let a := INR o * ((1 + / INR o) ^ (h + 1) - 1) / INR (min_sec k) in
  rank_accurate (rc2_digest extra) (rc2_new k) (Z.of_nat n) (share a) /\ value_accurate (rc2_digest extra) (rc2_new k) (Z.of_nat n) (share (2 * a)) /\
  counted (rc2_digest extra) (rc2_new k) (Z.of_nat n).
Proof.
  intros Hk Hf Hu Ho1 Ho2 Hh. destruct (xr_room (INR n + err2 k o h n)) as (B & HB & Hi).
  exact (conj (@rc2_rank B HB extra k n o h Hk Hf Hu Ho1 Ho2 Hh Hi) (conj (@rc2_value B HB extra k n o h Hk Hf Hu Ho1 Ho2 Hh Hi) (@rc2_counted B HB extra k n o h Hk Hf Hu Ho1 Ho2 Hh Hi))).
Qed.
