(** RCSketch2: an explicit bound on the variance of ranks. *)
From Coq Require Import List Arith ZArith NArith Lia Bool Reals Lra.
From Verif Require Import Base Floats Digest Spec FloatFacts History TDigest RCSketch RCProofs RCHist RCRank RCExpect RCTop RCQuery RCObs RC2 RC2Sections RC2Proofs RC2Hist RC2Rank RC2Top.
Set Implicit Arguments.
Local Open Scope nat_scope.

(** how much the square of the weight of a compaction grows from level to level, relative to the items that arrive there *)
Definition rho (o : nat) : R := (2 * (1 + / INR o))%R.
Definition var2 (k : N) (o h n : nat) : R := ((rho o ^ (h + 1) - 1) / (rho o - 1) * INR n / INR (min_sec k))%R.

Section RC2V.
  Context {F : Type} {FO : FloatOps F} {FL : FloatLaws F}.
  Variable extra : nat.
  Notation level2 := (@level2 F).

  Lemma rho_ge o : 1 <= o -> (2 <= rho o)%R.
  Proof. intros H. unfold rho. assert (0 < / INR o)%R by (apply Rinv_0_lt_compat, lt_0_INR; lia). lra. Qed.

  Lemma fits2_compactions2 k o (lv : list level2) : 1 <= o -> forall n, fits2 k o lv n ->
    (INR (min_sec k) * INR (lv_compactions2 (plain lv)) * (rho o - 1) <= (rho o ^ length lv - 1) * INR n)%R.
  Proof.
    intros Ho. pose proof (rho_ge Ho) as Hr. induction lv as [|[[b c] s] up IH]; intros n HF.
    - cbn in HF. subst. cbn. lra.
    - destruct HF as (r & n' & H1 & H2 & (H3 & _) & _ & H5). specialize (IH n' H5).
      cbn [plain map fst lv_compactions2 length]. fold (plain up). cbn [pow]. rewrite plus_INR, mult_INR.
      replace (INR 4) with 4%R by (cbn; lra).
      set (cc := INR (lv_compactions2 (plain up))) in *. set (g := INR (min_sec k)) in *. set (p := (rho o ^ length up)%R) in *.
      assert (1 <= p)%R as Hp by (apply pow_R1_Rle; lra).
      assert (g * INR (N.to_nat c) <= INR n)%R as A1 by (unfold g; rewrite <- mult_INR; apply le_INR; lia).
      assert (4 * INR n' <= rho o * INR n)%R as A2.
      { assert (2 * o * n' <= (o + 1) * n) as H6 by nia. apply le_INR in H6. rewrite !mult_INR, plus_INR in H6. replace (INR 2) with 2%R in H6 by (cbn; lra). change (INR 1) with 1%R in H6.
        assert (0 < INR o)%R as Hoo by (apply lt_0_INR; lia). unfold rho. apply Rmult_le_reg_l with (INR o); [exact Hoo|].
        replace (INR o * (2 * (1 + / INR o) * INR n))%R with (2 * ((INR o + 1) * INR n))%R by (field; lra). lra. }
      assert (4 * ((p - 1) * INR n') <= (p - 1) * (rho o * INR n))%R as A3 by (rewrite <- Rmult_assoc, (Rmult_comm 4), Rmult_assoc; apply Rmult_le_compat_l; lra).
      assert (g * INR (N.to_nat c) * (rho o - 1) <= INR n * (rho o - 1))%R as A4 by (apply Rmult_le_compat_r; lra).
      replace (g * (INR (N.to_nat c) + 4 * cc) * (rho o - 1))%R with (g * INR (N.to_nat c) * (rho o - 1) + 4 * (g * cc * (rho o - 1)))%R by ring.
      replace ((rho o * p - 1) * INR n)%R with (INR n * (rho o - 1) + (p - 1) * (rho o * INR n))%R by ring. lra.
  Qed.

  Theorem rank2_variance_explicit k (ops : list (rop F)) v o h : proper2 k ops -> few2 k ops -> default_mode ops -> no_nan (ritems_of ops) ->
    Nat.odd o = true -> o <= min_sec k + 1 -> (o + 1) ^ h * length (ritems_of ops) < 6 * N.to_nat k * (2 * o) ^ h ->
    (expect (fun z => (IZR z - INR (n_le (ritems_of ops) v)) ^ 2) (rank_after2 extra k ops v) <= var2 k o h (length (ritems_of ops)))%R.
  Proof.
    intros Hp Hf Hm Hn Ho1 Ho2 Hh. assert (1 <= o) as Ho by (destruct o; [discriminate|lia]). pose proof (rho_ge Ho) as Hr.
    pose proof (default_mode_method Hm) as Hm'. eapply Rle_trans; [apply (@rank2_variance F FO FL extra k ops v); auto|].
    pose proof (@run2_true F FO FL extra k ops Hp Hm' Hn) as HT. rewrite <- (@expect_const _ (var2 k o h (length (ritems_of ops))) (rc2_run extra k ops) HT).
    eapply expect_le_always; [apply (@rc2_state F FO FL extra k ops o (fun x => fisnan x = false) Hp (conj Ho1 Ho2)); auto using default_keeps|].
    cbn beta. intros s ((_ & _ & _ & HF & _) & _). cbn [snd] in HF.
    pose proof (@fits2_short F k o _ _ h (proj1 Hp) (conj Ho1 Ho2) HF Hh) as HL. pose proof (@fits2_compactions2 k o _ Ho _ HF) as HC.
    assert (0 < INR (min_sec k))%R as Hg by (apply lt_0_INR; exact (min_sec_ge (proj1 Hp))).
    unfold var2. apply Rmult_le_reg_l with (INR (min_sec k) * (rho o - 1))%R; [apply Rmult_lt_0_compat; lra|].
    replace (INR (min_sec k) * (rho o - 1) * ((rho o ^ (h + 1) - 1) / (rho o - 1) * INR (length (ritems_of ops)) / INR (min_sec k)))%R
      with ((rho o ^ (h + 1) - 1) * INR (length (ritems_of ops)))%R by (field; lra).
    assert (rho o ^ length (r2_levels s) <= rho o ^ (h + 1))%R as HP by (apply Rle_pow; [lra|lia]).
    pose proof (pos_INR (length (ritems_of ops))) as HN.
    replace (INR (min_sec k) * (rho o - 1) * INR (lv_compactions2 (plain (r2_levels s))))%R with (INR (min_sec k) * INR (lv_compactions2 (plain (r2_levels s))) * (rho o - 1))%R by ring.
    eapply Rle_trans; [exact HC|]. apply Rmult_le_compat_r; lra.
  Qed.
End RC2V.
