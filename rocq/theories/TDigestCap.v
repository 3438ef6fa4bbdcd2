(** How heavy a centroid can be after any history, in exact arithmetic. *)
From Coq Require Import List Arith ZArith Lia Bool Permutation Sorted Reals Lra.
From Flocq Require Import Core.
From Verif Require Import Base Floats XReal Digest TDigest Spec FloatFacts History TDigestProofs TDigestProofs2 TDigestExact TDigestExactQ TDigestExactV TDigestHist TDigestTop ScaleFunctions ScaleProofs TDigestScale TDigestAcc TDigestAcc2 TDigestParts TDigestAt TDigestAt2.
Set Implicit Arguments.
Local Open Scope R_scope.

Section Cap.
  Variables (cfg : tcfg xr) (k inv : xr -> xr -> xr -> xr) (cf : R).
  Hypothesis HS : with_scale cfg k inv cf.
  Let Hlib : lib_ok cfg := proj1 HS.
  Let Hcf : tc_cf cfg = XFin cf := proj2 (proj2 (proj2 HS)).
  (** the cap when there are m items *)
  Variable B : nat -> R.
  Hypothesis B1 : forall m, 1 <= B m.
  Hypothesis Bmono : forall m m', (1 <= m)%nat -> (m <= m')%nat -> B m <= B m'.
  Hypothesis Bstep : forall m lam, (2 <= m)%nat -> lam = B m / INR m -> step_width k inv cf (INR m) lam.

  Definition capped (s : tdigest xr) (its : list R) : Prop := forall cs, listed s cs -> Forall (fun c => snd c <= B (length its)) cs.

  Lemma cap_merge s its l : texact s its -> capped s its -> its ++ l <> [] ->
    exists s', td_add_buffer cfg s (map XFin l) = Ret s' /\ capped s' (its ++ l).
  Proof.
    intros Hs HC Hne. destruct (@merge_groups cfg cf Hcf Hlib s its l Hs Hne) as (s' & old & rs & A1 & A2 & A3 & A4 & A5 & A6 & A7 & A8 & A9).
    exists s'. split; [exact A1|]. intros cs Hcs.
    assert (cs = map ravg rs) as -> by (apply emb_inj; exact (eq_trans (eq_sym Hcs) A6)).
    assert (forall c, In c (map ucen l ++ old) -> snd c <= B (length (its ++ l))) as Hold.
    { intros c Hc. apply in_app_or in Hc as [Hc|Hc]; [apply in_map_iff in Hc as (x & <- & _); cbn [ucen snd]; apply B1|].
      pose proof (HC _ A2) as Ho. rewrite Forall_forall in Ho. specialize (Ho c Hc). eapply Rle_trans; [exact Ho|].
      assert (its <> []) as Hi. { intros ->. destruct Hs as [(_ & E & _)|(N & _)]; [|congruence]. unfold listed in A2. rewrite E in A2. destruct old; [destruct Hc|discriminate]. }
      apply Bmono; [destruct its; [congruence|cbn; lia]|rewrite app_length; lia]. }
    apply Forall_map, Forall_forall. intros g Hg. cbn [ravg snd].
    assert (0 < INR (length (its ++ l))) as Hn by (apply lt_0_INR; destruct (its ++ l); [congruence|cbn; lia]).
    set (n := INR (length (its ++ l))) in *.
    destruct (le_lt_dec 2 (length g)) as [H2|H2].
    - apply in_split in Hg as (pre & post & Eg). pose proof (@greedy_fits _ n rs 0 A9 pre g post Eg H2) as HF. rewrite Rplus_0_l in HF.
      assert (forall x, Forall (Forall heavy) x -> 0 <= Wt (concat x)) as Hnn.
      { intros x Hx. apply Wt_nonneg. induction Hx; [constructor|]. cbn [concat]. now apply Forall_app. }
      rewrite Eg in A8, A7. apply Forall_app in A8 as [Hp Hq]. pose proof (Forall_inv Hq) as Hhg. pose proof (Hnn _ Hp) as P1. pose proof (Hnn _ (Forall_inv_tail Hq)) as P2.
      rewrite concat_app, Wt_app in A7. cbn [concat] in A7. rewrite Wt_app in A7. fold n in A7.
      assert (g <> []) as Hgn by (intros ->; cbn in H2; lia). pose proof (posint_ge (Wt_posint Hhg Hgn)) as P3.
      assert (2 <= length (its ++ l))%nat as Hn2.
      { assert (2 <= Wt g) as W2. { destruct g as [|a [|b g']]; cbn in H2; try lia. rewrite !Wt_cons. pose proof (Forall_inv Hhg) as Ha. pose proof (Forall_inv (Forall_inv_tail Hhg)) as Hb. apply posint_ge in Ha, Hb.
          pose proof (Wt_nonneg (Forall_inv_tail (Forall_inv_tail Hhg))). lra. }
        apply INR_le. fold n. change (INR 2) with 2. lra. }
      assert (0 < / n) as Hin by now apply Rinv_0_lt_compat.
      assert ((Wt (concat pre) + Wt g) / n - Wt (concat pre) / n <= B (length (its ++ l)) / n) as HB.
      { pose proof (proj1 (proj2 HS)) as Ek. pose proof (proj1 (proj2 (proj2 HS))) as Ei. rewrite Ek, Ei in HF. refine (Bstep Hn2 eq_refl _ _ _ HF).
        - unfold Rdiv; nra.
        - unfold Rdiv; nra.
        - apply Rmult_le_reg_r with n; [exact Hn|]. unfold Rdiv. rewrite Rmult_assoc, Rinv_l by lra. lra. }
      apply (Rmult_le_compat_r n) in HB; [|lra]. replace (((Wt (concat pre) + Wt g) / n - Wt (concat pre) / n) * n) with (Wt g) in HB by (field; lra).
      replace (B (length (its ++ l)) / n * n) with (B (length (its ++ l))) in HB by (field; lra). exact HB.
    - rewrite Forall_forall in A5. pose proof (A5 g Hg) as Hgn. destruct g as [|c [|d g]]; [congruence| |cbn in H2; lia].
      rewrite Wt_cons. unfold Wt. cbn [map sumR fold_right]. rewrite Rplus_0_r. apply Hold. eapply Permutation_in; [exact A3|]. apply in_concat. exists [c]. split; [exact Hg|now left].
  Qed.

  Definition capped_state (s : tdigest xr) (its : list xr) : Prop := forall rs, its = map XFin rs -> texact s rs /\ capped s rs.

  Lemma capped_step s its o : capped_state s its -> whenever (fun r => capped_state (fst r) (its ++ items_of [o])) (step (t_digest cfg) s o).
  Proof.
    intros H.
    assert (forall l, whenever (fun s' => capped_state s' (its ++ l)) (td_add_buffer cfg s l)) as Hb.
    { intros l. assert (Forall xfinite (its ++ l) \/ ~ Forall xfinite (its ++ l)) as [Hf|Hf].
      { generalize (its ++ l). clear. intros l. induction l as [|x l [H|H]]; [left; constructor| |right; intros HH; inversion HH; auto].
        destruct x as [| |r]; [right|right|left; constructor; [exists r|]; auto]; intros HH; inversion HH as [|? ? [r Hr]]; discriminate. }
      - assert (exists rs, its ++ l = map XFin rs) as (rs & Ers).
        { clear -Hf. induction Hf as [|x l' [r ->] H [rs IH]]; [exists []; reflexivity|]. exists (r :: rs). cbn [map]. now rewrite IH. }
        apply map_eq_app in Ers || (symmetry in Ers; apply map_eq_app in Ers). destruct Ers as (r1 & r2 & -> & <- & <-).
        destruct (H r1 eq_refl) as (H1 & H2). destruct (add_buffer_exact Hlib r2 H1) as (s' & E & H3). rewrite E.
        cbn [whenever]. intros rs' E'. rewrite <- map_app in E'. apply map_XFin_inj in E'. subst rs'. split; [exact H3|].
        destruct (r1 ++ r2) as [|x0 r0] eqn:Er.
        + intros cs Hcs. destruct H3 as [(_ & E3 & _)|(N & _)]; [|congruence]. unfold listed in Hcs. rewrite E3 in Hcs. destruct cs; [constructor|discriminate].
        + rewrite <- Er. assert (r1 ++ r2 <> []) as Hne by (rewrite Er; discriminate). destruct (@cap_merge s r1 r2 H1 H2 Hne) as (s2 & E2 & H4).
          assert (Ret s' = Ret s2) as Es by (rewrite <- E; exact E2). injection Es as ->. exact H4.
      - eapply whenever_mono; [apply whenever_true|]. intros s' _ rs' E'. exfalso. apply Hf. rewrite E'.
        apply Forall_map, Forall_forall. intros r _. exists r. auto. }
    destruct o as [x|l|v|q]; cbn [step t_digest d_add d_add_buffer d_est_q d_est_v items_of].
    - change (td_add cfg s x) with (td_add_buffer cfg s [x]). eapply whenever_bind; [apply Hb|]. intros s' H'. exact H'.
    - rewrite app_nil_r. eapply whenever_bind; [apply Hb|]. intros s' H'. exact H'.
    - rewrite app_nil_r, bind_assoc. cbn [bind]. eapply whenever_bind; [apply whenever_true|]. intros a _. exact H.
    - rewrite app_nil_r, bind_assoc. cbn [bind]. eapply whenever_bind; [apply whenever_true|]. intros a _. exact H.
  Qed.

  Theorem td_cap ops rs : items_of ops = map XFin rs ->
    whenever (fun r => exists cs, listed (fst r) cs /\ forall c, In c cs -> snd c <= B (length rs)) (exec (t_digest cfg) td_new ops).
  Proof.
    intros Hits. eapply whenever_mono.
    - refine (@exec_whenever xr (t_digest cfg) capped_state capped_step ops td_new [] _).
      intros rs0 E. symmetry in E. apply map_eq_nil in E. subst. split; [left; repeat split; reflexivity|].
      intros cs Hcs. unfold listed in Hcs. destruct cs; [constructor|discriminate].
    - intros [s a] H. cbn [fst] in *. destruct (H rs Hits) as [H1 H2].
      assert (exists cs, listed s cs) as (cs & Hcs). { destruct H1 as [(_ & E & _)|(_ & cs & lo & hi & HI)]; [exists []; exact E|exists cs; exact (ti_cs HI)]. }
      exists cs. split; [exact Hcs|]. apply Forall_forall. exact (H2 cs Hcs).
  Qed.
End Cap.

(** [m] times the width of a step *)
Definition cap (lam : R -> R) (m : nat) : R := Rmax 1 (lam (INR m) * INR m).
Section Steps.
  Variables (cfg : tcfg xr) (k inv : xr -> xr -> xr -> xr) (cf : R) (lam : R -> R).
  Hypothesis HS : with_scale cfg k inv cf.
  Hypothesis Hlam : forall n, 1 <= n -> 0 <= lam n.
  Hypothesis Hmono : forall n n', 1 <= n -> n <= n' -> lam n <= lam n' .
  Hypothesis Hstep : forall n, 1 <= n -> step_width k inv cf n (lam n).

  Theorem td_lam ops rs : items_of ops = map XFin rs ->
    whenever (fun r => exists cs, listed (fst r) cs /\ forall c, In c cs -> snd c <= Rmax 1 (lam (size rs) * size rs)) (exec (t_digest cfg) td_new ops).
  Proof.
    intros Hits. refine (@td_cap cfg k inv cf HS (cap lam) _ _ _ ops rs Hits).
    - intros m. apply Rmax_l.
    - intros m m' H1 H2. unfold cap. apply Rle_max_compat_l. assert (1 <= INR m) as G1 by (change 1 with (INR 1); now apply le_INR).
      assert (INR m <= INR m') as G2 by now apply le_INR. pose proof (Hlam G1). pose proof (Hmono G1 G2). nra.
    - intros m l Hm -> q q' H0 H1 H2 H. assert (2 <= INR m) as G1 by (change 2 with (INR 2); now apply le_INR).
      assert (1 <= INR m) as G2 by lra. pose proof (Hstep G2 H0 H1 H2 H) as HW. apply Rle_trans with (lam (INR m)); [exact HW|].
      apply Rmult_le_reg_r with (INR m); [lra|]. replace (cap lam m / INR m * INR m) with (cap lam m) by (field; lra). apply Rmax_r.
  Qed.
End Steps.

Section Shipped.
  Variables (cfg : tcfg xr) (cf : R).
  Hypothesis Hc : 0 < cf.
  Lemma den_mono a c n n' : 0 < c -> 1 <= n -> n <= n' -> den a c n <= den a c n'.
  Proof.
    intros H H1 H2. unfold den. assert (log10 (n / c) <= log10 (n' / c)); [|lra].
    assert (0 < / c) by now apply Rinv_0_lt_compat. apply log10_le; [unfold Rdiv; nra|unfold Rdiv; nra].
  Qed.
  Lemma den_frac a c d n n' : 0 < c -> 0 < d -> 1 <= n -> n <= n' -> 0 < den a c 1 -> forall e, 0 < e -> 0 <= e * (den a c n / d) /\ e * (den a c n / d) <= e * (den a c n' / d).
  Proof.
    intros H H' H1 H2 H3 e He. pose proof (den_mono a H (Rle_refl 1) H1). pose proof (den_mono a H H1 H2). assert (0 < / d) by now apply Rinv_0_lt_compat.
    unfold Rdiv. split; [apply Rmult_le_pos; [lra|apply Rmult_le_pos; lra]|]. apply Rmult_le_compat_l; [lra|]. apply Rmult_le_compat_r; lra.
  Qed.
  Variables (ops : list (op xr)) (rs : list R).
  Hypothesis Hits : items_of ops = map XFin rs.
  Notation caps L := (whenever (fun r => exists cs, listed (fst r) cs /\ forall c, In c cs -> snd c <= Rmax 1 (L * size rs)) (exec (t_digest cfg) td_new ops)).
  Lemma cap_k0 : with_scale cfg k0 inv_k0 cf -> caps (2 / cf).
  Proof.
    intros HS. refine (@td_lam cfg k0 inv_k0 cf (fun _ => 2 / cf) HS _ _ _ ops rs Hits); [|intros; lra|intros; now apply k0_width].
    intros. apply Rlt_le, Rdiv_lt_0_compat; lra.
  Qed.
  Lemma cap_k1 : with_scale cfg k1 inv_k1 cf -> caps (PI / cf).
  Proof.
    intros HS. refine (@td_lam cfg k1 inv_k1 cf (fun _ => PI / cf) HS _ _ _ ops rs Hits); [|intros; lra|intros; now apply k1_width].
    intros. pose proof PI_RGT_0. apply Rlt_le, Rdiv_lt_0_compat; lra.
  Qed.
  Lemma cap_k2 : with_scale cfg k2 inv_k2 cf -> 0 < den 24 cf 1 -> caps (ln 10 / 4 * (den 24 cf (size rs) / cf)).
  Proof.
    intros HS Hd. pose proof ln10_pos as Hl. refine (@td_lam cfg k2 inv_k2 cf (fun n => ln 10 / 4 * (den 24 cf n / cf)) HS _ _ _ ops rs Hits).
    - intros n Hn. apply (den_frac Hc Hc Hn (Rle_refl n) Hd). lra.
    - intros n n' Hn Hn'. apply (den_frac Hc Hc Hn Hn' Hd). lra.
    - intros n Hn. apply k2_width; [exact Hc|lra|]. pose proof (den_mono 24 Hc (Rle_refl 1) Hn). lra.
  Qed.
  Lemma cap_k3 : with_scale cfg k3 inv_k3 cf -> 0 < den 21 cf 1 -> caps (ln 10 / 2 * (den 21 cf (size rs) / cf)).
  Proof.
    intros HS Hd. pose proof ln10_pos as Hl. refine (@td_lam cfg k3 inv_k3 cf (fun n => ln 10 / 2 * (den 21 cf n / cf)) HS _ _ _ ops rs Hits).
    - intros n Hn. apply (den_frac Hc Hc Hn (Rle_refl n) Hd). lra.
    - intros n n' Hn Hn'. apply (den_frac Hc Hc Hn Hn' Hd). lra.
    - intros n Hn. apply k3_width; [exact Hc|lra|]. pose proof (den_mono 21 Hc (Rle_refl 1) Hn). lra.
  Qed.
  Lemma cap_k2_asym : with_scale cfg k2_asym inv_k2_asym cf -> 0 < den 24 (cf * 2) 1 -> caps (ln 10 / 4 * (den 24 (cf * 2) (size rs) / cf)).
  Proof.
    intros HS Hd. pose proof ln10_pos as Hl. assert (0 < cf * 2) as Hc2 by lra. refine (@td_lam cfg k2_asym inv_k2_asym cf (fun n => ln 10 / 4 * (den 24 (cf * 2) n / cf)) HS _ _ _ ops rs Hits).
    - intros n Hn. apply (den_frac Hc2 Hc Hn (Rle_refl n) Hd). lra.
    - intros n n' Hn Hn'. apply (den_frac Hc2 Hc Hn Hn' Hd). lra.
    - intros n Hn. apply k2_asym_width; [lra|exact Hc|]. pose proof (den_mono 24 Hc2 (Rle_refl 1) Hn). lra.
  Qed.

  (** few items: nothing is merged *)
  Lemma few L : L * size rs < 2 -> lib_ok cfg -> caps L -> whenever (fun r => ((2 <= length rs)%nat -> exact_ranks cfg (fst r) rs) /\ (rs <> [] -> (Z.of_nat (length rs) < 2 ^ 64)%Z -> exact_values cfg (fst r) rs)) (exec (t_digest cfg) td_new ops).
  Proof.
    intros HL Hlib HC. pose proof (single_top Hlib ops rs Hits) as H. pose proof (td_exec_exact Hlib ops rs Hits) as HT.
    eapply whenever_mono; [exact (whenever_and _ _ _ (whenever_and _ _ _ H HC) HT)|]. intros [s a] [[H1 (cs & H2 & H3)] H4]. cbn [fst] in *. apply H1.
    intros c Hin. unfold listed in H2. rewrite H2 in Hin. apply in_map_iff in Hin as (p & <- & Hp). cbn [weight]. f_equal. specialize (H3 p Hp).
    destruct H4 as [(_ & E & _)|(_ & cs' & lo & hi & HI)]; [rewrite E in H2; destruct cs; [destruct Hp|discriminate]|].
    pose proof (known HI H2) as Ec. subst cs'. pose proof (ti_heavy HI) as Hh. rewrite Forall_forall in Hh. destruct (Hh p Hp) as (z & Hz & Ez).
    rewrite Ez in *. assert (IZR z < 2) as Hz2 by (eapply Rle_lt_trans; [exact H3|]; apply Rmax_lub_lt; lra). apply lt_IZR in Hz2. f_equal. lia.
  Qed.
  Theorem few_k0 : with_scale cfg k0 inv_k0 cf -> size rs < cf ->
    whenever (fun r => ((2 <= length rs)%nat -> exact_ranks cfg (fst r) rs) /\ (rs <> [] -> (Z.of_nat (length rs) < 2 ^ 64)%Z -> exact_values cfg (fst r) rs)) (exec (t_digest cfg) td_new ops).
  Proof.
    intros HS Hn. apply few with (L := 2 / cf); [|exact (proj1 HS)|now apply cap_k0].
    apply Rmult_lt_reg_r with cf; [exact Hc|]. replace (2 / cf * size rs * cf) with (2 * size rs) by (field; lra). lra.
  Qed.
  Theorem few_k1 : with_scale cfg k1 inv_k1 cf -> PI / 2 * size rs < cf ->
    whenever (fun r => ((2 <= length rs)%nat -> exact_ranks cfg (fst r) rs) /\ (rs <> [] -> (Z.of_nat (length rs) < 2 ^ 64)%Z -> exact_values cfg (fst r) rs)) (exec (t_digest cfg) td_new ops).
  Proof.
    intros HS Hn. apply few with (L := PI / cf); [|exact (proj1 HS)|now apply cap_k1].
    apply Rmult_lt_reg_r with cf; [exact Hc|]. replace (PI / cf * size rs * cf) with (PI * size rs) by (field; lra). lra.
  Qed.
End Shipped.
