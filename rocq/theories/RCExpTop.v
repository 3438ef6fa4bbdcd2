(** Exponential moments of the rank error as users observe it: RCSketch (absolute and relative) and RCSketch2. *)
From Coq Require Import List Arith ZArith NArith Lia Bool Permutation Sorted Reals Lra.
From Verif Require Import Base Floats Digest Spec FloatFacts History TDigest RCSketch RCProofs RCHist RCRank RCExpect RCTop RCQuery RCObs RCRel RCRelTop RCExp.
From Verif Require Import RC2 RC2Sections RC2Proofs RC2Hist RC2Rank RC2Top RC2Var.
Set Implicit Arguments.
Local Open Scope R_scope.

Section Top.
  Context {F : Type} {FO : FloatOps F} {FL : FloatLaws F}.
  Notation level := (@level F).
  Notation err ops v := (fun z => IZR z - INR (n_le (ritems_of ops) v)).

  (* ------------------------------------------------------------------ *)
  (** * RCSketch, even k *)

  Lemma run_compactions2 lg n k (ops : list (rop F)) bs : proper lg n k ops -> default_mode ops -> few_levels n k ops -> Nat.even k = true ->
    calc_buffer_size lg n k = Ret bs ->
    always (fun s => INR k * INR bs * INR (lv_compactions2 (rc_levels s)) <= 2 * INR (length (ritems_of ops)) ^ 2) (rc_run lg n k ops).
  Proof.
    intros Hp Hm Hf He Hc. set (N := length (ritems_of ops)).
    assert (bs = spec_size n k) as -> by (eapply size_val; [apply Hp|exact Hc]).
    assert (1 <= k)%nat as Hk by apply Hp. destruct (spec_size_ge n Hk) as [Hbs _].
    assert (exists h, (N < spec_size n k * 2 ^ h /\ spec_size n k * (2 ^ h - 1) <= 2 * N)%nat) as (h & H1 & H2).
    { assert (forall g, N < spec_size n k * 2 ^ g -> exists h, N < spec_size n k * 2 ^ h /\ spec_size n k * (2 ^ h - 1) <= 2 * N)%nat as H.
      { induction g as [|g IH]; intros Hg.
        - exists 0%nat. split; auto. cbn [Nat.pow]. lia.
        - destruct (Nat.lt_ge_cases N (spec_size n k * 2 ^ g)) as [Hlt|Hge]; [auto|].
          exists (S g). split; auto. rewrite Nat.pow_succ_r', Nat.mul_sub_distr_l. lia. }
      apply (H N). assert (N < 2 ^ N)%nat by (apply Nat.pow_gt_lin_r; lia). nia. }
    assert (always (fun s => halves k (spec_size n k) (rc_levels s) N) (rc_run lg n k ops)) as HA.
    { assert (whenever (fun s => halves k (spec_size n k) (rc_levels s) N) (rc_run lg n k ops)) as HW
        by (rewrite rc_run_val by apply Hp; apply rc_halves; auto; apply Hp).
      pose proof (@rc_run_always F FO FL lg n k ops Hp (default_mode_method Hm)) as HR.
      eapply always_mono; [exact (@always_whenever_and _ _ _ _ HR HW)|]. cbn beta. tauto. }
    eapply always_mono; [exact HA|]. cbn beta. intros s HH.
    pose proof (halves_height _ _ h Hk HH H1) as Hh.
    assert (k * lv_compactions2 (rc_levels s) <= (2 ^ (length (rc_levels s) - 1) - 1) * N)%nat as H3 by (eapply halves_compactions2; eauto).
    assert (2 ^ (length (rc_levels s) - 1) <= 2 ^ h)%nat as H5 by (apply Nat.pow_le_mono_r; lia).
    assert (k * lv_compactions2 (rc_levels s) <= (2 ^ h - 1) * N)%nat as H6 by (eapply Nat.le_trans; [exact H3|apply Nat.mul_le_mono_r; lia]).
    assert (k * spec_size n k * lv_compactions2 (rc_levels s) <= 2 * (N * N))%nat as H7.
    { replace (k * spec_size n k * lv_compactions2 (rc_levels s))%nat with (spec_size n k * (k * lv_compactions2 (rc_levels s)))%nat by ring.
      eapply Nat.le_trans; [apply Nat.mul_le_mono_l; exact H6|]. rewrite Nat.mul_assoc, (Nat.mul_assoc 2 N N). apply Nat.mul_le_mono_r. exact H2. }
    apply le_INR in H7. rewrite !mult_INR in H7. change (INR 2) with 2 in H7. replace (INR N ^ 2) with (INR N * INR N) by ring. exact H7.
  Qed.

  Lemma rank_exp lg n k (ops : list (rop F)) v bs l : proper lg n k ops -> default_mode ops -> few_levels n k ops -> Nat.even k = true ->
    calc_buffer_size lg n k = Ret bs ->
    expect (fun z => exp (l * (IZR z - INR (n_le (ritems_of ops) v)))) (rank_after lg n k ops v)
    <= exp (l ^ 2 / 2 * (2 * INR (length (ritems_of ops)) ^ 2 / (INR k * INR bs))).
  Proof.
    intros Hp Hm Hf He Hc. pose proof (run_compactions2 Hp Hm Hf He Hc) as HV. pose proof (size_val (proj1 Hp) Hc) as Hb.
    rewrite rank_after_expect by (auto using default_mode_method). rewrite <- (@rc_run_val F FO FL lg n k ops) by apply Hp.
    set (R := INR (n_le (ritems_of ops) v)). assert (1 <= k)%nat as Hk by apply Hp. destruct (spec_size_ge n Hk) as [Hbs _].
    assert (always (fun _ => True) (rc_run lg n k ops)) as HT by (eapply always_mono; [exact HV|auto]).
    rewrite <- (Rmult_1_l (exp (l ^ 2 / 2 * _))).
    erewrite expect_ext_always; [|exact HT|]. 1: apply (@drop_exp _ (rc_run lg n k ops) (fun s => l * (INR (lv_rank (rc_levels s) v) - R)) (fun s => l ^ 2 / 2 * INR (lv_compactions2 (rc_levels s)))).
    3: { intros s _. cbn beta. rewrite <- INR_IZR_INZ. reflexivity. }
    - eapply always_mono; [exact HV|]. cbn beta. intros s Hs. apply Rmult_le_compat_l; [pose proof (pow2_ge_0 l); lra|].
      assert (0 < INR k * INR bs) as HP by (apply Rmult_lt_0_compat; apply lt_0_INR; lia).
      apply Rmult_le_reg_l with (INR k * INR bs); [exact HP|]. unfold Rdiv. rewrite (Rmult_comm (2 * _)), <- Rmult_assoc, Rinv_r, Rmult_1_l by lra. exact Hs.
    - rewrite (@rc_run_val F FO FL lg n k ops) by apply Hp. rewrite (@rc_run_val F FO FL lg n k ops) in HT by apply Hp.
      pose proof (@rexec_exp F FO FL k (spec_size n k) v Hk Hbs ops (rc_fresh n k) (- R) l Hm eq_refl eq_refl ltac:(constructor) HT) as H.
      unfold mgf in H at 2. cbn [rc_levels rc_fresh lv_rank lv_compactions2] in H.
      fold R in H. replace (l * (INR 0 + (R + - R)) - l ^ 2 / 2 * INR 0) with 0 in H by (cbn [INR]; ring). rewrite exp_0 in H. exact H.
  Qed.

  (* ------------------------------------------------------------------ *)
  (** * RCSketch, relative to the rank *)

  Section Ghost.
    Variables (k bs : nat) (v : F).
    Hypothesis Hk : (1 <= k)%nat.
    Hypothesis Hbs : (2 <= bs)%nat.
    Notation glevel := (@glevel F).

    Definition gmgf (l : R) (lv : list glevel) : R := exp (l * INR (lv_rank (erase lv) v) - l ^ 2 / 2 * INR (important2 lv)).
    Lemma gmgf_cons l b c g m up : gmgf l (((b, c), (g, m)) :: up) = exp (l * INR (n_le b v) - l ^ 2 / 2 * INR m) * gmgf (2 * l) up.
    Proof.
      unfold gmgf. rewrite <- exp_plus. f_equal. cbn [erase map fst lv_rank important2]. fold (erase up). rewrite !plus_INR, !mult_INR.
      change (INR 2) with 2. replace (INR 4) with 4 by (cbn; ring). field.
    Qed.

    Lemma gfill_exp fuel :
      (forall lv items l, always (fun _ => True) (gfill k bs v fuel lv items) ->
         expect (fun lv' => gmgf l lv') (gfill k bs v fuel lv items) <= exp (l * INR (n_le items v)) * gmgf l lv) /\
      (forall b c g m up l, always (fun _ => True) (gdrain k bs v fuel b c g m up) ->
         expect (fun lv' => gmgf l lv') (gdrain k bs v fuel b c g m up) <= gmgf l (((b, c), (g, m)) :: up)).
    Proof.
      induction fuel as [|fuel [IHf IHd]]; [split; intros; contradiction|]. split.
      - intros lv items l. rewrite gfill_S. destruct (gensure lv) as [[[b c] [g m]] up] eqn:E.
        assert (gmgf l lv = gmgf l (((b, c), (g, m)) :: up)) as Elv.
        { destruct lv as [|[[b0 c0] [g0 m0]] up0]; cbn [gensure] in E; injection E; intros; subst; reflexivity. }
        destruct items as [|x items].
        { intros _. cbn [expect]. rewrite Elv. replace (INR (n_le [] v)) with 0 by reflexivity. rewrite Rmult_0_r, exp_0. lra. }
        destruct (bs <? length b)%nat; [intros []|]. intros HA.
        set (r := skipn (bs - length b) (x :: items)) in *.
        eapply Rle_trans.
        { eapply expect_bind_le with (P := fun _ => True) (h := fun lv' => exp (l * INR (n_le r v)) * gmgf l lv'); [exact HA|apply whenever_true|].
          intros lv' _ H. apply IHf; exact H. }
        rewrite expect_scal. eapply Rle_trans; [apply Rmult_le_compat_l; [apply Rlt_le, exp_pos|apply IHd; eapply always_bind_true; exact HA]|].
        rewrite Elv, !gmgf_cons, n_le_app, plus_INR.
        assert (n_le (x :: items) v = n_le (firstn (bs - length b) (x :: items)) v + n_le r v)%nat as Hsp by (unfold r; rewrite <- n_le_app, firstn_skipn; reflexivity).
        rewrite Hsp, plus_INR.
        right. rewrite <- !Rmult_assoc. rewrite <- !exp_plus. f_equal. f_equal. ring.
      - intros b c g m up l. rewrite gdrain_S. destruct (length b <? bs)%nat; [intros _; cbn [expect]; lra|].
        intros HA. pose proof (always_bind_true _ _ HA) as Hix.
        apply compact_index_ret in Hix as (i & c' & Ei & _). rewrite Ei in *. cbn [bind] in *.
        pose proof (always_bind_true _ _ HA) as Hco.
        apply compact_coin in Hco as (s & Hp & Hs & His & Es). 2: exact (fun _ => 0).
        rewrite Es in *. cbn [bind expect always] in *.
        assert (n_le b v = n_le (firstn i s) v + n_le (skipn i s) v)%nat as Esp by (rewrite (n_le_perm v Hp), <- n_le_app, firstn_skipn; reflexivity).
        set (m' := if (n_le b v =? n_le (firstn i s) v)%nat then m else S m) in *.
        assert (forall ch, expect (fun lv' => gmgf l lv')
                  (do up' <- gfill k bs v fuel up (every_other ch (skipn i s));
                   gdrain k bs v fuel (firstn i s) c' g m' up')
                <= exp (l * (INR (n_le (firstn i s) v) + 2 * INR (n_le (every_other ch (skipn i s)) v))) *
                   (exp (- (l ^ 2 / 2 * INR m')) * gmgf (2 * l) up)) as Hch.
        { intros ch. specialize (HA ch).
          eapply Rle_trans.
          { eapply expect_bind_le with (P := fun _ => True)
              (h := fun up' => exp (l * INR (n_le (firstn i s) v) - l ^ 2 / 2 * INR m') * gmgf (2 * l) up');
              [exact HA|apply whenever_true|].
            intros up' _ H. eapply Rle_trans; [apply IHd; exact H|]. rewrite gmgf_cons. lra. }
          rewrite expect_scal. eapply Rle_trans; [apply Rmult_le_compat_l; [apply Rlt_le, exp_pos|apply IHf; eapply always_bind_true; exact HA]|].
          right. rewrite <- !Rmult_assoc, <- !exp_plus. f_equal. f_equal. ring. }
        pose proof (Hch false) as H0. pose proof (Hch true) as H1. rewrite gmgf_cons.
        rewrite <- (firstn_skipn i s) in Hs. apply SS_app in Hs as (_ & Hs & _).
        destruct (every_other_rank v Hs) as [Q1 Q2].
        rewrite Esp, <- Q1, !plus_INR.
        set (x0 := n_le (every_other false (skipn i s)) v) in *. set (x1 := n_le (every_other true (skipn i s)) v) in *.
        set (n0 := INR (n_le (firstn i s) v)) in *.
        assert (0 < gmgf (2 * l) up) as Hm by apply exp_pos.
        assert (m' = m /\ x0 = 0%nat /\ x1 = 0%nat \/ m' = S m) as [(-> & E0 & E1)|Em].
        { unfold m'. destruct (Nat.eqb_spec (n_le b v) (n_le (firstn i s) v)); [left; repeat split; auto; lia|right; auto]. }
        + rewrite E0, E1 in *. cbn [INR] in *. rewrite Rmult_0_r, Rplus_0_r, <- Rmult_assoc, <- exp_plus in H0, H1. rewrite Rplus_0_l, Rplus_0_r.
          unfold Rminus. lra.
        + rewrite Em, S_INR in *. set (K := exp (- (l ^ 2 / 2 * (INR m + 1))) * gmgf (2 * l) up) in *.
          assert (0 < K) as HK by (apply Rmult_lt_0_compat; [apply exp_pos|exact Hm]).
          match goal with |- _ <= exp ?e * _ => replace (exp e * gmgf (2 * l) up) with (exp (l * (n0 + (INR x0 + INR x1)) + l ^ 2 / 2) * K) end.
          2: { unfold K. rewrite <- Rmult_assoc, <- exp_plus. f_equal. f_equal. field. }
          apply coin_step; [lra|lia|exact H0|exact H1].
    Qed.

    Lemma gfold_exp sts l : forall lv, always (fun _ => True) (foldM (gstep k bs v) lv sts) ->
      expect (fun lv' => gmgf l lv') (foldM (gstep k bs v) lv sts) <= exp (l * INR (n_le (concat (map snd sts)) v)) * gmgf l lv.
    Proof.
      induction sts as [|st sts IH]; intros lv HA; cbn [foldM map concat] in *.
      - cbn [expect]. replace (INR (n_le [] v)) with 0 by reflexivity. rewrite Rmult_0_r, exp_0. lra.
      - eapply Rle_trans.
        { eapply expect_bind_le with (P := fun _ => True) (h := fun lv' => exp (l * INR (n_le (concat (map snd sts)) v)) * gmgf l lv'); [exact HA|apply whenever_true|].
          intros lv' _ H. apply IH; exact H. }
        rewrite expect_scal. eapply Rle_trans; [apply Rmult_le_compat_l; [apply Rlt_le, exp_pos|apply (proj1 (gfill_exp _)); eapply always_bind_true; exact HA]|].
        right. rewrite n_le_app, plus_INR, <- Rmult_assoc, <- exp_plus. f_equal. f_equal. ring.
    Qed.

    (** the important compactions, without expectations *)
    Lemma charged_worst2 q T : (k * (T + 1) <= bs)%nat -> forall h lv n r, charged k bs v q T lv n r -> (r * (k + 1) ^ h <= q * (2 * k) ^ h)%nat ->
      INR k * INR (important2 lv) * (rho k - 1) <= (rho k ^ h - 1) * INR r.
    Proof.
      intros HT. pose proof (rho_ge Hk) as Hr. assert (0 < INR k) as Hk0 by (apply lt_0_INR; lia).
      induction h as [|h IH]; intros [|[[b c] [g m]] up] n r Hch HR.
      - cbn [important2 INR pow]. lra.
      - cbn [Nat.pow] in HR. destruct (@charged_few F FO k bs v q T Hk Hbs HT b c g m up n r Hch ltac:(lia)) as (-> & E & n' & H0).
        cbn [important2]. rewrite (@charged_zero2 F FO k bs v q T Hk Hbs HT _ _ H0). cbn [INR Nat.mul Nat.add pow]. lra.
      - destruct Hch as [_ ->]. cbn [important2]. change (INR 0) with 0. lra.
      - destruct Hch as (r0 & n' & rem & R' & _ & _ & _ & -> & Hp & Hch). pose proof (@paid_all F FO k bs v q T Hk Hbs HT _ _ _ _ _ _ Hp) as Hm.
        destruct Hp as (H1 & _ & _ & _ & H6 & H7 & _).
        assert (2 * k * R' <= (k + 1) * r)%nat as HR' by nia.
        assert (R' * (k + 1) ^ h <= q * (2 * k) ^ h)%nat as HRh.
        { rewrite !Nat.pow_succ_r' in HR. apply (Nat.mul_le_mono_pos_l _ _ (2 * k)); [lia|].
          assert (2 * k * R' * (k + 1) ^ h <= (k + 1) * r * (k + 1) ^ h)%nat by (apply Nat.mul_le_mono_r; exact HR'). lia. }
        specialize (IH up n' R' Hch HRh). cbn [important2]. rewrite plus_INR, mult_INR. replace (INR 4) with 4 by (cbn; ring).
        assert (INR k * INR m <= INR r) as Hmr by (rewrite <- mult_INR; apply le_INR; lia).
        assert (4 * INR R' <= rho k * INR r) as HRr.
        { apply le_INR in HR'. rewrite !mult_INR, plus_INR in HR'. change (INR 2) with 2 in HR'. change (INR 1) with 1 in HR'.
          unfold rho. apply Rmult_le_reg_l with (INR k); [exact Hk0|].
          replace (INR k * (2 * (1 + / INR k) * INR r)) with (2 * ((INR k + 1) * INR r)) by (field; lra). lra. }
        assert (1 <= rho k ^ h) as Hp1 by (apply pow_R1_Rle; lra). cbn [pow].
        set (P := rho k ^ h) in *. set (rr := rho k) in *. set (im := INR (important2 up)) in *.
        replace (INR k * (INR m + 4 * im) * (rr - 1)) with (INR k * INR m * (rr - 1) + 4 * (INR k * im * (rr - 1))) by ring.
        assert (INR k * INR m * (rr - 1) <= INR r * (rr - 1)) as A1 by (apply Rmult_le_compat_r; lra).
        assert ((P - 1) * (4 * INR R') <= (P - 1) * (rr * INR r)) as A2 by (apply Rmult_le_compat_l; lra).
        lra.
    Qed.
  End Ghost.

  (** variance proxy relative to the rank [r] *)
  Definition rel_var (k h r : nat) : R := (rho k ^ h - 1) / (rho k - 1) * INR r / INR k.

  Lemma rank_relative_exp lg n k (ops : list (rop F)) v bs h l : proper lg n k ops -> default_mode ops -> few_levels n k ops ->
    calc_buffer_size lg n k = Ret bs -> (n_le (ritems_of ops) v * (k + 1) ^ h <= bs / 2 * (2 * k) ^ h)%nat ->
    expect (fun z => exp (l * (IZR z - INR (n_le (ritems_of ops) v)))) (rank_after lg n k ops v)
    <= exp (l ^ 2 / 2 * rel_var k h (n_le (ritems_of ops) v)).
  Proof.
    intros Hp Hm Hf Hc Hh. rewrite rank_after_expect by auto using default_mode_method.
    assert (always (fun _ => True) (rexec (rc_fresh n k) ops)) as HA.
    { rewrite <- (@rc_run_val F FO FL lg n k ops) by apply Hp.
      eapply always_mono; [apply rc_run_always; auto using default_mode_method|auto]. }
    destruct Hp as (Hp & Hr & Hn). rewrite (size_val Hp Hc) in Hh.
    assert (1 <= k)%nat as Hk by apply Hp. pose proof (default_in_range Hr Hm) as Hlen. destruct (spec_size_ge n Hk) as [Hb _].
    set (r := n_le (ritems_of ops) v) in *.
    destruct (@fresh_charged F FO FL n k ops v Hk Hlen) as (T & HT & HC).
    pose proof (@fresh_fold F FO FL n k ops v Hk Hm) as HF.
    assert (always (fun _ => True) (foldM (gstep k (spec_size n k) v) [] (concat (map (steps (spec_size n k)) ops)))) as HG.
    { assert (always (fun _ => True) (do s' <- rexec (rc_fresh n k) ops; Ret (rc_levels s'))) as H by (apply always_map; exact HA).
      rewrite HF, always_map in H. exact H. }
    erewrite expect_ext_always with (g := fun s => (fun lv => exp (l * (INR (lv_rank lv v) - INR r))) (rc_levels s)); [|exact HA|].
    2: { intros s _. cbn beta. now rewrite <- INR_IZR_INZ. }
    rewrite <- (expect_map (fun lv => exp (l * (INR (lv_rank lv v) - INR r)))), HF, expect_map.
    rewrite <- (Rmult_1_l (exp (l ^ 2 / 2 * _))).
    apply (@drop_exp _ _ (fun s => l * (INR (lv_rank (erase s) v) - INR r)) (fun s => l ^ 2 / 2 * INR (important2 s))).
    - eapply always_mono; [exact (@always_whenever_and _ _ _ _ HG HC)|]. cbn beta. intros s [_ Hs].
      apply Rmult_le_compat_l; [pose proof (pow2_ge_0 l); lra|].
      pose proof (@charged_worst2 k (spec_size n k) v Hk Hb _ T HT h s _ _ Hs Hh) as HW. pose proof (rho_ge Hk) as Hrho.
      assert (0 < INR k) as Hk0 by (apply lt_0_INR; lia).
      unfold rel_var. apply Rmult_le_reg_l with (INR k * (rho k - 1)); [apply Rmult_lt_0_compat; lra|].
      replace (INR k * (rho k - 1) * ((rho k ^ h - 1) / (rho k - 1) * INR r / INR k)) with ((rho k ^ h - 1) * INR r) by (field; lra).
      replace (INR k * (rho k - 1) * INR (important2 s)) with (INR k * INR (important2 s) * (rho k - 1)) by ring. exact HW.
    - pose proof (@gfold_exp k (spec_size n k) v Hk Hb (concat (map (steps (spec_size n k)) ops)) l [] HG) as H.
      rewrite (@steps_items F k (spec_size n k) Hk Hb ops) in H. fold r in H.
      replace (gmgf v l []) with 1 in H by (unfold gmgf; cbn [erase map lv_rank important2 INR]; rewrite !Rmult_0_r, Rminus_0_r, exp_0; reflexivity).
      erewrite expect_ext_always with (g := fun s => exp (- (l * INR r)) * gmgf v l s); [|exact HG|].
      + rewrite expect_scal. eapply Rle_trans; [apply Rmult_le_compat_l; [apply Rlt_le, exp_pos|exact H]|].
        right. rewrite Rmult_1_r, <- exp_plus. replace (- (l * INR r) + l * INR r) with 0 by ring. apply exp_0.
      + intros s _. cbn beta. unfold gmgf. rewrite <- exp_plus. f_equal. ring.
  Qed.

  (** in closed form, with the least number of halvings *)
  Lemma rank_relative_exp2 lg n k (ops : list (rop F)) v bs h l : proper lg n k ops -> default_mode ops -> few_levels n k ops ->
    calc_buffer_size lg n k = Ret bs -> (n_le (ritems_of ops) v * (k + 1) ^ S h <= bs / 2 * (2 * k) ^ S h)%nat ->
    expect (fun z => exp (l * (IZR z - INR (n_le (ritems_of ops) v)))) (rank_after lg n k ops v)
    <= exp (l ^ 2 / 2 * (2 * (1 + / INR k) ^ (2 * h) * INR (n_le (ritems_of ops) v) ^ 2 / (INR k * INR (bs / 2)))).
  Proof.
    intros Hp Hm Hf Hc Hh. set (r := n_le (ritems_of ops) v) in *.
    assert (1 <= k)%nat as Hk by apply Hp. pose proof (size_val (proj1 Hp) Hc) as Hb. destruct (spec_size_ge n Hk) as [Hbs _].
    assert (1 <= bs / 2)%nat as Hq by (apply Nat.div_le_lower_bound; lia). set (q := (bs / 2)%nat) in *.
    assert (0 < INR k) as Hk0 by (apply lt_0_INR; lia). assert (0 < INR q) as Hq0 by (apply lt_0_INR; lia).
    assert (1 <= 1 + / INR k) as Hbase by (pose proof (Rinv_0_lt_compat _ Hk0); lra). pose proof (pos_INR r) as Hr0.
    assert (exists h0, (h0 <= S h /\ r * (k + 1) ^ h0 <= q * (2 * k) ^ h0 /\
              (h0 = 0 \/ exists h1, h0 = S h1 /\ q * (2 * k) ^ h1 < r * (k + 1) ^ h1))%nat) as (h0 & L1 & L2 & L3).
    { clear -Hh. induction h as [|h IH].
      - destruct (Nat.le_gt_cases r q) as [Hle|Hgt].
        + exists 0%nat. cbn [Nat.pow]. repeat split; auto; lia.
        + exists 1%nat. repeat split; auto. right. exists 0%nat. cbn [Nat.pow]. lia.
      - destruct (Nat.le_gt_cases (r * (k + 1) ^ S h) (q * (2 * k) ^ S h)) as [Hle|Hgt].
        + destruct (IH Hle) as (h0 & A & B & C). exists h0. auto.
        + exists (S (S h)). repeat split; auto. right. exists (S h). auto. }
    eapply Rle_trans; [exact (@rank_relative_exp lg n k ops v bs h0 l Hp Hm Hf Hc L2)|]. fold r. apply exp_mono.
    apply Rmult_le_compat_l; [pose proof (pow2_ge_0 l); lra|]. pose proof (rho_ge Hk) as Hrho. unfold rel_var.
    assert (0 <= 2 * (1 + / INR k) ^ (2 * h) * INR r ^ 2) as Hpos by (apply Rmult_le_pos; [apply Rmult_le_pos; [lra|apply pow_le; lra]|apply pow2_ge_0]).
    destruct L3 as [->|(h1 & -> & L3)].
    { cbn [pow]. replace ((1 - 1) / (rho k - 1) * INR r / INR k) with 0 by (field; lra).
      apply Rmult_le_pos; [exact Hpos|apply Rlt_le, Rinv_0_lt_compat, Rmult_lt_0_compat; assumption]. }
    assert (INR q * 2 ^ h1 <= INR r * (1 + / INR k) ^ h1) as H3.
    { apply lt_INR in L3. rewrite !mult_INR, !pow_INR, mult_INR, plus_INR in L3. change (INR 2) with 2 in L3. change (INR 1) with 1 in L3.
      replace (1 + / INR k) with ((INR k + 1) * / INR k) by (field; lra).
      rewrite !Rpow_mult_distr, pow_inv in *.
      assert (0 < INR k ^ h1) as Hp1 by (now apply pow_lt).
      apply Rmult_le_reg_r with (INR k ^ h1); [exact Hp1|].
      replace (INR r * ((INR k + 1) ^ h1 * / INR k ^ h1) * INR k ^ h1) with (INR r * (INR k + 1) ^ h1) by (field; lra).
      lra. }
    assert ((1 + / INR k) ^ (2 * h1) <= (1 + / INR k) ^ (2 * h)) as H4 by (apply Rle_pow; [exact Hbase|lia]).
    assert (INR q * rho k ^ h1 <= INR r * (1 + / INR k) ^ (2 * h1)) as H5.
    { unfold rho. rewrite Rpow_mult_distr. replace (2 * h1)%nat with (h1 + h1)%nat by lia. rewrite pow_add.
      assert (0 <= (1 + / INR k) ^ h1) by (apply pow_le; lra). nra. }
    assert ((rho k ^ S h1 - 1) / (rho k - 1) <= 2 * rho k ^ h1) as H6.
    { assert (1 <= rho k ^ h1) by (apply pow_R1_Rle; lra). apply Rmult_le_reg_r with (rho k - 1); [lra|].
      replace ((rho k ^ S h1 - 1) / (rho k - 1) * (rho k - 1)) with (rho k ^ S h1 - 1) by (field; lra). cbn [pow]. nra. }
    set (X := (rho k ^ S h1 - 1) / (rho k - 1)) in *.
    apply Rmult_le_reg_l with (INR k * INR q); [apply Rmult_lt_0_compat; assumption|].
    replace (INR k * INR q * (X * INR r / INR k)) with (INR q * X * INR r) by (field; lra).
    replace (INR k * INR q * (2 * (1 + / INR k) ^ (2 * h) * INR r ^ 2 / (INR k * INR q))) with (2 * (INR r * (1 + / INR k) ^ (2 * h)) * INR r) by (field; lra).
    apply Rmult_le_compat_r; [exact Hr0|].
    apply Rle_trans with (2 * (INR q * rho k ^ h1)); [|nra].
    replace (2 * (INR q * rho k ^ h1)) with (INR q * (2 * rho k ^ h1)) by ring. apply Rmult_le_compat_l; lra.
  Qed.

  (* ------------------------------------------------------------------ *)
  (** * RCSketch2 *)

  Lemma compress_exp k v n : forall size (lv : list (@level2 F)) l,
    always (fun _ => True) (compress_from k false Default n size lv) ->
    expect (fun r => mgf v l (plain (snd r)) 0) (compress_from k false Default n size lv) <= mgf v l (plain lv) 0.
  Proof.
    induction n as [|n IH]; intros size lv l; cbn [compress_from]; [intros _; cbn [expect snd]; lra|].
    destruct lv as [|[[b c] s] up]; [intros []|].
    destruct (ret_cases_capacity s) as [[cp Ec]|Ec]; rewrite Ec; cbn [bind]; [|intros []].
    (* the levels above, under a level with buffer b and counter c *)
    assert (forall (b0 : list F) c0 (s0 : sections) size0 up0, always (fun _ => True) (compress_from k false Default n size0 up0) ->
              expect (fun r => mgf v l (plain (snd r)) 0) (do (size', up') <- compress_from k false Default n size0 up0; Ret (size', ((b0, c0), s0) :: up'))
              <= exp (l * (INR (n_le b0 v) + 0) - l ^ 2 / 2 * INR (N.to_nat c0)) * mgf v (2 * l) (plain up0) 0) as HU.
    { intros b0 c0 s0 size0 up0 HA0. rewrite expect_bind.
      erewrite expect_ext_always with (P := fun _ => True)
        (g := fun r => exp (l * (INR (n_le b0 v) + 0) - l ^ 2 / 2 * INR (N.to_nat c0)) * mgf v (2 * l) (plain (snd r)) 0).
      2: exact HA0.
      2: { intros [size' up'] _. cbn [expect snd plain map fst]. apply mgf_cons. }
      rewrite expect_scal. apply Rmult_le_compat_l; [apply Rlt_le, exp_pos|]. apply IH; exact HA0. }
    destruct (length b <? cp)%nat.
    { intros HA. eapply Rle_trans; [apply HU; eapply always_bind_true; exact HA|].
      change (plain (((b, c), s) :: up)) with ((b, c) :: plain up). rewrite mgf_cons. apply Rle_refl. }
    intros HA. pose proof (always_bind_true _ _ HA) as Hix.
    apply compact_index2_ret in Hix as (i & c' & Ei & Hc'). rewrite Ei in *. cbn [bind] in *. specialize (Hc' eq_refl).
    pose proof (always_bind_true _ _ HA) as Hco.
    apply compact_coin in Hco as (ss & Hp & Hs & His & Es). 2: exact (fun _ => 0).
    rewrite Es in *. cbn [bind expect always] in *.
    destruct (size <? length b - i)%nat; [destruct (HA true)|].
    destruct (ret_cases_update c' s) as [[s' Eu]|Eu]; rewrite Eu in *; cbn [bind] in *; [|destruct (HA true)].
    assert (forall ch, expect (fun r => mgf v l (plain (snd r)) 0)
              (do (size', up') <- compress_from k false Default n (size - (length b - i) + length (every_other ch (skipn i ss)))
                                    (extend_next k up (every_other ch (skipn i ss)));
               Ret (size', ((firstn i ss, c'), s') :: up'))
            <= exp (l * (INR (n_le (firstn i ss) v) + 2 * INR (n_le (every_other ch (skipn i ss)) v))) *
               (exp (- (l ^ 2 / 2 * (INR (N.to_nat c) + 1))) * mgf v (2 * l) (plain up) 0)) as Hch.
    { intros ch. specialize (HA ch). eapply Rle_trans; [apply HU; eapply always_bind_true; exact HA|].
      right. unfold mgf. rewrite <- !exp_plus. f_equal.
      assert (rank2 (extend_next k up (every_other ch (skipn i ss))) v = rank2 up v + n_le (every_other ch (skipn i ss)) v)%nat as E1 by apply rank_extend. unfold rank2 in E1.
      rewrite E1, compactions2_extend, plus_INR, Hc', N2Nat.inj_add, plus_INR. change (INR (N.to_nat 1)) with 1. field. }
    pose proof (Hch false) as H0. pose proof (Hch true) as H1. change (plain (((b, c), s) :: up)) with ((b, c) :: plain up). rewrite mgf_cons.
    rewrite (n_le_perm v Hp).
    rewrite <- (firstn_skipn i ss) in Hs. apply SS_app in Hs as (_ & Hs & _).
    destruct (every_other_rank v Hs) as [Q1 Q2].
    assert (n_le ss v = n_le (firstn i ss) v + n_le (skipn i ss) v)%nat as Esp by (rewrite <- n_le_app, firstn_skipn; reflexivity).
    rewrite Esp, <- Q1, !plus_INR.
    set (x0 := n_le (every_other false (skipn i ss)) v) in *. set (x1 := n_le (every_other true (skipn i ss)) v) in *.
    set (n0 := INR (n_le (firstn i ss) v)) in *.
    set (K := exp (- (l ^ 2 / 2 * (INR (N.to_nat c) + 1))) * mgf v (2 * l) (plain up) 0) in *.
    assert (0 < K) as HK by (apply Rmult_lt_0_compat; apply exp_pos).
    match goal with |- _ <= exp ?e * _ => replace (exp e * mgf v (2 * l) (plain up) 0) with (exp (l * (n0 + (INR x0 + INR x1)) + l ^ 2 / 2) * K) end.
    2: { unfold K. rewrite <- Rmult_assoc, <- exp_plus. f_equal. f_equal. field. }
    apply coin_step; [lra|lia|exact H0|exact H1].
  Qed.

  Lemma rexec2_exp k v extra ops (s : rc2 F) a l : Forall (fun o => rfast o = false /\ rmeth o = Default) ops -> r2_k s = k ->
    always (fun _ => True) (rexec2 extra s ops) ->
    expect (fun s' => mgf v l (plain (r2_levels s')) a) (rexec2 extra s ops) <= mgf v l (plain (r2_levels s)) (INR (n_le (ritems_of ops) v) + a).
  Proof.
    intros Hm Ek HA.
    apply (@rexec2_phi F FO k v (fun lv a => mgf v l (plain lv) a) (fun fast m => fast = false /\ m = Default)); auto.
    - intros. unfold mgf. f_equal. cbn [plain map fst lv_rank lv_compactions2]. rewrite n_le_app, !plus_INR. ring.
    - intros fast m n size lv a0 [-> ->] HA'.
      erewrite expect_ext_always with (P := fun _ => True) (g := fun r => exp (l * a0) * mgf v l (plain (snd r)) 0); [|exact HA'|intros; apply mgf_shift].
      rewrite expect_scal, (mgf_shift v l (plain lv) a0). apply Rmult_le_compat_l; [apply Rlt_le, exp_pos|]. now apply compress_exp.
  Qed.

  Lemma rank2_exp extra k (ops : list (rop F)) v o h l : proper2 k ops -> few2 k ops -> default_mode ops -> no_nan (ritems_of ops) ->
    Nat.odd o = true -> (o <= min_sec k + 1)%nat -> ((o + 1) ^ h * length (ritems_of ops) < 6 * N.to_nat k * (2 * o) ^ h)%nat ->
    expect (fun z => exp (l * (IZR z - INR (n_le (ritems_of ops) v)))) (rank_after2 extra k ops v) <= exp (l ^ 2 / 2 * var2 k o h (length (ritems_of ops))).
  Proof.
    intros Hp Hf Hm Hn Ho1 Ho2 Hh. assert (1 <= o)%nat as Ho by (destruct o; [discriminate|lia]). pose proof (rho_ge Ho) as Hr.
    pose proof (default_mode_method Hm) as Hm'.
    pose proof (@run2_true F FO FL extra k ops Hp Hm' Hn) as HT.
    rewrite rank_after2_expect by assumption. set (r := INR (n_le (ritems_of ops) v)).
    rewrite <- (Rmult_1_l (exp (l ^ 2 / 2 * _))).
    erewrite expect_ext_always; [|exact HT|].
    1: apply (@drop_exp _ (rc2_run extra k ops) (fun s => l * (INR (lv_rank (plain (r2_levels s)) v) - r)) (fun s => l ^ 2 / 2 * INR (lv_compactions2 (plain (r2_levels s))))).
    3: { intros s _. cbn beta. rewrite <- INR_IZR_INZ. reflexivity. }
    - eapply always_mono; [apply (@rc2_state F FO FL extra k ops o (fun x => fisnan x = false) Hp (conj Ho1 Ho2)); auto using default_keeps|].
      cbn beta. intros s ((_ & _ & _ & HF & _) & _). cbn [snd] in HF. apply Rmult_le_compat_l; [pose proof (pow2_ge_0 l); lra|].
      pose proof (@fits2_short F k o _ _ h (proj1 Hp) (conj Ho1 Ho2) HF Hh) as HL. pose proof (@fits2_compactions2 F k o _ Ho _ HF) as HC.
      assert (0 < INR (min_sec k)) as Hg by (apply lt_0_INR; exact (min_sec_ge (proj1 Hp))).
      unfold var2. apply Rmult_le_reg_l with (INR (min_sec k) * (rho o - 1)); [apply Rmult_lt_0_compat; lra|].
      replace (INR (min_sec k) * (rho o - 1) * ((rho o ^ (h + 1) - 1) / (rho o - 1) * INR (length (ritems_of ops)) / INR (min_sec k)))
        with ((rho o ^ (h + 1) - 1) * INR (length (ritems_of ops))) by (field; lra).
      assert (rho o ^ length (r2_levels s) <= rho o ^ (h + 1)) as HP by (apply Rle_pow; [lra|lia]).
      pose proof (pos_INR (length (ritems_of ops))) as HN.
      replace (INR (min_sec k) * (rho o - 1) * INR (lv_compactions2 (plain (r2_levels s)))) with (INR (min_sec k) * INR (lv_compactions2 (plain (r2_levels s))) * (rho o - 1)) by ring.
      eapply Rle_trans; [exact HC|]. apply Rmult_le_compat_r; lra.
    - pose proof (@rexec2_exp k v extra ops (rc2_new k) (- r) l Hm eq_refl HT) as H.
      fold r in H. replace (mgf v l (plain (r2_levels (rc2_new (F := F) k))) (r + - r)) with 1 in H.
      + exact H.
      + unfold mgf. assert (INR (lv_rank (plain (r2_levels (rc2_new (F := F) k))) v) = 0) as -> by reflexivity.
        assert (INR (lv_compactions2 (plain (r2_levels (rc2_new (F := F) k)))) = 0) as -> by reflexivity.
        rewrite Rmult_0_r, Rminus_0_r. replace (l * (0 + (r + - r))) with 0 by ring. now rewrite exp_0.
  Qed.
End Top.
