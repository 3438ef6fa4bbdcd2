(** RCSketch2: ranks, their expectation and variance. *)
From Coq Require Import List Arith ZArith NArith Lia Bool Permutation Sorted Reals Lra Psatz.
From Verif Require Import Base Floats IEEE Digest Spec FloatFacts History TDigest RCSketch RCProofs RCHist RCRank RCExpect RC2 RC2Sections RC2Proofs RC2Hist.
Set Implicit Arguments.
Local Open Scope nat_scope.

Section RC2R.
  Context {F : Type} {FO : FloatOps F} {FL : FloatLaws F}.
  Notation level2 := (@level2 F).

  Definition rank2 (lv : list level2) (v : F) : nat := lv_rank (plain lv) v.

  Lemma rank_extend k (up : list level2) out v : rank2 (extend_next k up out) v = rank2 up v + n_le out v.
  Proof.
    destruct up as [|[[b c] s] up]; unfold rank2; cbn [extend_next plain map new_level fst lv_rank]; [lia|].
    rewrite n_le_app. lia.
  Qed.
  Lemma compactions_extend k (up : list level2) out : lv_compactions (plain (extend_next k up out)) = lv_compactions (plain up).
  Proof. destruct up as [|[[b c] s] up]; reflexivity. Qed.
  Lemma compactions2_extend k (up : list level2) out : lv_compactions2 (plain (extend_next k up out)) = lv_compactions2 (plain up).
  Proof. destruct up as [|[[b c] s] up]; reflexivity. Qed.

  (** every compaction of level i moves a rank by at most 2^i *)
  Lemma Press_rank k n (lv lv' : list level2) v : Press k false Default n lv lv' ->
    (Z.abs (Z.of_nat (rank2 lv' v) - Z.of_nat (rank2 lv v))
     <= Z.of_nat (lv_compactions (plain lv')) - Z.of_nat (lv_compactions (plain lv)))%Z.
  Proof.
    induction 1 as [lv|n b c s up up' cp Ec Hl HP IH|n b c s up cp i c' lo out s' up' Ec Hl Hi Hc Hu HP IH].
    - lia.
    - unfold rank2 in *. cbn [plain map fst lv_rank lv_compactions] in *. fold (plain up) (plain up') in *. lia.
    - rewrite rank_extend, compactions_extend in IH. destruct Hi as (_ & _ & -> & _).
      destruct Hc as (hi & Hp & Hs & Hlo & Ho). apply SS_app in Hs as (_ & Hs & _).
      pose proof (out_rank v Hs Ho) as [O1 O2].
      unfold rank2 in *. cbn [plain map fst lv_rank lv_compactions] in *. fold (plain up) (plain up') in *.
      rewrite (n_le_perm v Hp), n_le_app, N2Nat.inj_add. change (N.to_nat 1) with 1. lia.
  Qed.

  (** ** the smallest items *)
  Lemma Press_guard k fast n (lv lv' : list level2) its : k_ok k -> wf k lv -> Press k fast Default n lv lv' ->
    guard 0 (3 * N.to_nat k) (plain lv) its -> guard 0 (3 * N.to_nat k) (plain lv') its.
  Proof.
    intros Hk Hwf HP HG.
    assert (forall hi out, output_of Default hi out -> forall Q : F -> Prop, Forall Q hi -> Forall Q out) as Hout.
    { intros hi out [ch ->] Q HQ. apply Forall_forall. intros y Hy. apply every_other_In in Hy.
      rewrite Forall_forall in HQ. auto. }
    destruct HP as [lv|n b c s up up' cp Ec Hl HP|n b c s up cp i c' lo out s' up' Ec Hl Hi Hc Hu HP]; auto.
    - destruct HG as (gone & G1 & G2 & G3 & G4). exists gone. repeat split; auto.
      eapply Press_all_in; eauto.
    - destruct HG as (gone & G1 & _ & G3 & G4). cbn [plain map fst] in G1, G3. fold (plain up) in G4.
      destruct (@compact_facts F k Hk fast b c s cp i c' s' (Forall_inv Hwf) Ec Hl Hi) as (_ & Hq & _ & _ & _ & _).
      destruct Hc as (hi & Hp & Hs & Hlo & Ho). apply SS_app in Hs as (_ & _ & Hlh).
      cbn [plain map fst guard]. fold (plain up'). exists (hi ++ gone). split; [|split; [|split]].
      + rewrite G1, Hp, <- app_assoc. reflexivity.
      + lia.
      + intros x Hx. apply in_app_iff in Hx as [Hx|Hx].
        * rewrite all_le_rank; [lia|]. intros y Hy. apply Hlh; auto.
        * specialize (G3 x Hx). rewrite (n_le_perm x Hp), n_le_app in G3.
          destruct (filter (fun y => fle y x) hi) as [|h hs] eqn:Eh.
          { unfold n_le at 2 in G3. rewrite Eh in G3. cbn in G3. lia. }
          assert (In h hi /\ fle h x = true) as [Hh1 Hh2].
          { apply (filter_In (fun y => fle y x)). rewrite Eh. now left. }
          rewrite all_le_rank; [lia|]. intros y Hy. eapply fle_trans; [apply (Hlh y h); auto|exact Hh2].
      + eapply Press_all_in; [exact HP|eauto|]. apply all_in_extend.
        * eapply Forall_impl; [|exact G4]. intros l Hlv. eapply Forall_impl; [|exact Hlv].
          intros y Hy. apply in_app_iff. now right.
        * eapply Hout; [exact Ho|]. apply Forall_forall. intros y Hy. apply in_app_iff. now left.
  Qed.

  (** ** expectation *)
  Section Expect.
    Variables (k : N) (v : F).

    Lemma compact_index2_ret fast (b : list F) c s : always (fun _ => True) (compact_index2 fast ((b, c), s)) ->
      exists i c', compact_index2 fast ((b, c), s) = Ret (i, c') /\ (fast = false -> c' = (c + 1)%N).
    Proof.
      unfold compact_index2. destruct fast.
      - cbn [fst snd]. destruct (ret_cases_capacity s) as [[cp E]|E]; rewrite E; cbn [bind]; [|intros []].
        intros _. eexists _, _. split; [reflexivity|discriminate].
      - unfold get_compact_index2, bump. destruct s as [ns ss].
        destruct (_ <? _)%N; [intros []|]. destruct (_ =? _)%N; cbn [bind]; [intros []|]. intros _. eauto.
    Qed.

    (** [Phi] is any function of the buffers and counters from this level on with an offset: the potential of a level is
        [weigh] of its own buffer and counter and of the potential of the levels above *)
    Lemma compress_expect fast n : forall size (lv : list level2),
      always (fun _ => True) (compress_from k fast Default n size lv) ->
      expect (fun r => INR (rank2 (snd r) v)) (compress_from k fast Default n size lv) = INR (rank2 lv v).
    Proof.
      induction n as [|n IH]; intros size lv; cbn [compress_from]; [reflexivity|].
      destruct lv as [|[[b c] s] up]; [intros []|].
      destruct (ret_cases_capacity s) as [[cp Ec]|Ec]; rewrite Ec; cbn [bind]; [|intros []].
      assert (forall (b : list F) c s up, INR (rank2 (((b, c), s) :: up) v) = (INR (n_le b v) + 2 * INR (rank2 up v))%R) as Erank.
      { intros b0 c0 s0 up0. unfold rank2. cbn [plain map fst lv_rank]. fold (plain up0). rewrite plus_INR, mult_INR. reflexivity. }
      destruct (length b <? cp).
      { intros HA. rewrite expect_bind.
        erewrite expect_ext_always with (P := fun _ => True) (g := fun r => (INR (n_le b v) + 2 * INR (rank2 (snd r) v))%R).
        2: eapply always_bind_true; exact HA.
        2: { intros [size' up'] _. cbn [expect snd]. apply Erank. }
        rewrite expect_plus, expect_const, expect_scal by (eapply always_bind_true; exact HA).
        rewrite IH by (eapply always_bind_true; exact HA). rewrite Erank. reflexivity. }
      intros HA. pose proof (always_bind_true _ _ HA) as Hix.
      apply compact_index2_ret in Hix as (i & c' & Ei & _). rewrite Ei in *. cbn [bind] in *.
      pose proof (always_bind_true _ _ HA) as Hco.
      apply compact_coin in Hco as (ss & Hp & Hs & His & Es). 2: exact (fun _ => 0%R).
      rewrite Es in *. cbn [bind expect always] in *.
      destruct (size <? length b - i); [destruct (HA true)|].
      destruct (ret_cases_update c' s) as [[s' Eu]|Eu]; rewrite Eu in *; cbn [bind] in *; [|destruct (HA true)].
      assert (forall ch, expect (fun r => INR (rank2 (snd r) v))
                (do (size', up') <- compress_from k fast Default n (size - (length b - i) + length (every_other ch (skipn i ss)))
                                      (extend_next k up (every_other ch (skipn i ss)));
                 Ret (size', ((firstn i ss, c'), s') :: up'))
              = (INR (n_le (firstn i ss) v) + 2 * (INR (rank2 up v) + INR (n_le (every_other ch (skipn i ss)) v)))%R) as Hch.
      { intros ch. specialize (HA ch). rewrite expect_bind.
        erewrite expect_ext_always with (P := fun _ => True) (g := fun r => (INR (n_le (firstn i ss) v) + 2 * INR (rank2 (snd r) v))%R).
        2: eapply always_bind_true; exact HA.
        2: { intros [size' up'] _. cbn [expect snd]. apply Erank. }
        rewrite expect_plus, expect_const, expect_scal by (eapply always_bind_true; exact HA).
        rewrite IH by (eapply always_bind_true; exact HA). rewrite rank_extend, plus_INR. reflexivity. }
      rewrite !Hch, Erank, (n_le_perm v Hp).
      assert (n_le ss v = n_le (firstn i ss) v + n_le (skipn i ss) v) as Esp by (rewrite <- n_le_app, firstn_skipn; reflexivity).
      rewrite <- (firstn_skipn i ss) in Hs. apply SS_app in Hs as (_ & Hs & _).
      pose proof (n_le_halves v Hs) as Hh. rewrite Esp, plus_INR. lra.
    Qed.

    (** mean square: every compaction of level i adds at most 4^i *)
    Lemma compress_square n : forall size (lv : list level2) a,
      always (fun _ => True) (compress_from k false Default n size lv) ->
      (expect (fun r => (INR (rank2 (snd r) v) + a) ^ 2 - INR (lv_compactions2 (plain (snd r)))) (compress_from k false Default n size lv)
       <= (INR (rank2 lv v) + a) ^ 2 - INR (lv_compactions2 (plain lv)))%R.
    Proof.
      induction n as [|n IH]; intros size lv a; cbn [compress_from]; [intros _; cbn [expect snd]; lra|].
      destruct lv as [|[[b c] s] up]; [intros []|].
      destruct (ret_cases_capacity s) as [[cp Ec]|Ec]; rewrite Ec; cbn [bind]; [|intros []].
      assert (forall (b : list F) c s up, INR (rank2 (((b, c), s) :: up) v) = (INR (n_le b v) + 2 * INR (rank2 up v))%R) as Erank.
      { intros b0 c0 s0 up0. unfold rank2. cbn [plain map fst lv_rank]. fold (plain up0). rewrite plus_INR, mult_INR. reflexivity. }
      assert (forall (b : list F) c (s : sections) up, INR (lv_compactions2 (plain (((b, c), s) :: up)))
                = (INR (N.to_nat c) + 4 * INR (lv_compactions2 (plain up)))%R) as Ecomp.
      { intros b0 c0 s0 up0. cbn [plain map fst lv_compactions2]. fold (plain up0). rewrite plus_INR, mult_INR. cbn [INR]. lra. }
      (* the levels above, under a level with buffer b and counter c *)
      assert (forall (b0 : list F) c0 s0 size0 up0, always (fun _ => True) (compress_from k false Default n size0 up0) ->
                (expect (fun r => (INR (rank2 (snd r) v) + a) ^ 2 - INR (lv_compactions2 (plain (snd r))))
                   (do (size', up') <- compress_from k false Default n size0 up0; Ret (size', ((b0, c0), s0) :: up'))
                 <= (INR (n_le b0 v) + 2 * INR (rank2 up0 v) + a) ^ 2 - (INR (N.to_nat c0) + 4 * INR (lv_compactions2 (plain up0))))%R) as HU.
      { intros b0 c0 s0 size0 up0 HA0. rewrite expect_bind. set (a' := ((INR (n_le b0 v) + a) / 2)%R).
        erewrite expect_ext_always with (P := fun _ => True)
          (g := fun r => (4 * ((INR (rank2 (snd r) v) + a') ^ 2 - INR (lv_compactions2 (plain (snd r)))) + - INR (N.to_nat c0))%R).
        2: exact HA0.
        2: { intros [size' up'] _. cbn [expect snd]. rewrite Erank, Ecomp. unfold a'. field. }
        rewrite expect_plus, expect_const, expect_scal by exact HA0.
        pose proof (IH size0 up0 a' HA0) as H. 
        eapply Rle_trans; [apply Rplus_le_compat_r, Rmult_le_compat_l; [lra|exact H]|].
        unfold a'. apply Req_le. field. }
      destruct (length b <? cp).
      { intros HA. eapply Rle_trans; [apply HU; eapply always_bind_true; exact HA|]. rewrite Erank, Ecomp. lra. }
      intros HA. pose proof (always_bind_true _ _ HA) as Hix.
      apply compact_index2_ret in Hix as (i & c' & Ei & Hc'). rewrite Ei in *. cbn [bind] in *. specialize (Hc' eq_refl).
      pose proof (always_bind_true _ _ HA) as Hco.
      apply compact_coin in Hco as (ss & Hp & Hs & His & Es). 2: exact (fun _ => 0%R).
      rewrite Es in *. cbn [bind expect always] in *.
      destruct (size <? length b - i); [destruct (HA true)|].
      destruct (ret_cases_update c' s) as [[s' Eu]|Eu]; rewrite Eu in *; cbn [bind] in *; [|destruct (HA true)].
      assert (forall ch, (expect (fun r => (INR (rank2 (snd r) v) + a) ^ 2 - INR (lv_compactions2 (plain (snd r))))
                (do (size', up') <- compress_from k false Default n (size - (length b - i) + length (every_other ch (skipn i ss)))
                                      (extend_next k up (every_other ch (skipn i ss)));
                 Ret (size', ((firstn i ss, c'), s') :: up'))
              <= (INR (n_le (firstn i ss) v) + 2 * (INR (rank2 up v) + INR (n_le (every_other ch (skipn i ss)) v)) + a) ^ 2
                 - (INR (N.to_nat c) + 1 + 4 * INR (lv_compactions2 (plain up))))%R) as Hch.
      { intros ch. specialize (HA ch). eapply Rle_trans; [apply HU; eapply always_bind_true; exact HA|].
        rewrite rank_extend, compactions2_extend, plus_INR, Hc', N2Nat.inj_add, plus_INR.
        change (INR (N.to_nat 1)) with 1%R. lra. }
      pose proof (Hch false) as H0. pose proof (Hch true) as H1. rewrite Erank, Ecomp.
      rewrite (n_le_perm v Hp).
      rewrite <- (firstn_skipn i ss) in Hs. apply SS_app in Hs as (_ & Hs & _).
      destruct (every_other_rank v Hs) as [Q1 Q2].
      assert (n_le ss v = n_le (firstn i ss) v + n_le (skipn i ss) v) as Esp by (rewrite <- n_le_app, firstn_skipn; reflexivity).
      rewrite Esp, <- Q1, !plus_INR.
      set (x0 := n_le (every_other false (skipn i ss)) v) in *. set (x1 := n_le (every_other true (skipn i ss)) v) in *.
      assert (INR x0 = INR x1 \/ INR x0 = INR x1 + 1)%R as [Ex|Ex].
      { assert (x0 = x1 \/ x0 = S x1) as [-> | ->] by lia; [left; reflexivity|right; apply S_INR]. }
      + rewrite Ex in *.
        match goal with |- (_ <= ?r)%R => replace r with
          (((INR (n_le (firstn i ss) v) + 2 * (INR (rank2 up v) + INR x1) + a) ^ 2
            - (INR (N.to_nat c) + 4 * INR (lv_compactions2 (plain up)))))%R by ring end.
        lra.
      + rewrite Ex in *.
        match goal with |- (_ <= ?r)%R => replace r with
          ((((INR (n_le (firstn i ss) v) + 2 * (INR (rank2 up v) + (INR x1 + 1)) + a) ^ 2
             + (INR (n_le (firstn i ss) v) + 2 * (INR (rank2 up v) + INR x1) + a) ^ 2) / 2 - 1
            - (INR (N.to_nat c) + 4 * INR (lv_compactions2 (plain up)))))%R by field end.
        lra.
    Qed.

    (** ** sequences of calls *)
    Variable Phi : list level2 -> R -> R.
    Variable mode : bool -> method -> Prop.
    Hypothesis Phi_ext : forall b c s up items a, Phi (((b ++ items, c), s) :: up) a = Phi (((b, c), s) :: up) (INR (n_le items v) + a)%R.
    Hypothesis Phi_press : forall fast m n size lv a, mode fast m -> always (fun _ => True) (compress_from k fast m n size lv) ->
      (expect (fun r => Phi (snd r) a) (compress_from k fast m n size lv) <= Phi lv a)%R.

    Lemma full_phi fast m size lv a : mode fast m -> always (fun _ => True) (compress_if_full k fast m size lv) ->
      (expect (fun r => Phi (snd r) a) (compress_if_full k fast m size lv) <= Phi lv a)%R.
    Proof.
      intros Hm. unfold compress_if_full.
      assert ((exists t, total_capacity lv = Ret t) \/ total_capacity lv = Panic) as [[t E]|E].
      { clear. induction lv as [|[[b c] s] up IH]; cbn [total_capacity]; [eauto|].
        destruct (ret_cases_capacity s) as [[cp E]|E]; rewrite E; cbn [bind]; [|auto].
        destruct IH as [[t E']|E']; rewrite E'; cbn [bind]; eauto. }
      - rewrite E. cbn [bind]. destruct (size <? t); [intros _; cbn [expect snd]; lra|]. intros HA. apply Phi_press; auto.
      - rewrite E. intros [].
    Qed.

    Lemma insert2_phi fast m size lv x a : mode fast m -> always (fun _ => True) (insert2 k fast m size lv x) ->
      (expect (fun r => Phi (snd r) a) (insert2 k fast m size lv x) <= Phi lv (INR (n_le [x] v) + a))%R.
    Proof.
      intros Hm. unfold insert2. destruct lv as [|[[b c] s] up]; cbn [extend_bottom bind]; [intros []|].
      intros HA. eapply Rle_trans; [apply full_phi; auto|]. rewrite Phi_ext. apply Rle_refl.
    Qed.

    Lemma batch_phi fast m fuel : forall size lv items a, mode fast m ->
      always (fun _ => True) (insert_batch k fast m fuel size lv items) ->
      (expect (fun r => Phi (snd r) a) (insert_batch k fast m fuel size lv items) <= Phi lv (INR (n_le items v) + a))%R.
    Proof.
      assert (forall size lv a, expect (fun r : nat * list level2 => Phi (snd r) a) (Ret (size, lv)) <= Phi lv (INR (n_le [] v) + a))%R as H0.
      { intros. cbn [expect snd]. replace (INR (n_le [] v)) with 0%R by reflexivity. rewrite Rplus_0_l. lra. }
      induction fuel as [|fuel IH]; intros size lv items a Hm.
      - destruct items; cbn [insert_batch]; [intros _; apply H0|intros []].
      - destruct items as [|x items]; cbn [insert_batch]; [intros _; apply H0|].
        set (its := x :: items).
        assert ((exists t, total_capacity lv = Ret t) \/ total_capacity lv = Panic) as [[t E]|E].
        { clear. induction lv as [|[[b c] s] up IH]; cbn [total_capacity]; [eauto|].
          destruct (ret_cases_capacity s) as [[cp E]|E]; rewrite E; cbn [bind]; [|auto].
          destruct IH as [[t E']|E']; rewrite E'; cbn [bind]; eauto. }
        2: rewrite E; intros [].
        rewrite E. cbn [bind]. destruct (t <? size); [intros []|]. set (room := Nat.min (t - size) (length its)).
        destruct lv as [|[[b c] s] up]; cbn [extend_bottom bind]; [intros []|]. intros HA.
        eapply Rle_trans.
        { eapply expect_bind_le with (P := fun _ => True) (h := fun r => Phi (snd r) (INR (n_le (skipn room its) v) + a)%R);
            [exact HA|apply whenever_true|].
          intros [size' lv'] _ H. cbn [snd]. apply IH; auto. }
        eapply Rle_trans; [apply full_phi; [exact Hm|eapply always_bind_true; exact HA]|].
        rewrite Phi_ext.
        replace (n_le its v) with (n_le (firstn room its) v + n_le (skipn room its) v) by (rewrite <- n_le_app, firstn_skipn; reflexivity).
        rewrite plus_INR. apply Req_le. f_equal. ring.
    Qed.

    Variable extra : nat.
    Lemma rexec2_phi : forall ops (s : rc2 F) a, Forall (fun o => mode (rfast o) (rmeth o)) ops -> r2_k s = k ->
      always (fun _ => True) (rexec2 extra s ops) ->
      (expect (fun s' => Phi (r2_levels s') a) (rexec2 extra s ops) <= Phi (r2_levels s) (INR (n_le (ritems_of ops) v) + a))%R.
    Proof.
      assert (forall (s : rc2 F) o a, mode (rfast o) (rmeth o) -> r2_k s = k -> always (fun _ => True) (rstep2 extra s o) ->
                (expect (fun s' => Phi (r2_levels s') a) (rstep2 extra s o) <= Phi (r2_levels s) (INR (n_le (ritems o) v) + a))%R) as HS.
      { intros s o a Hm Ek.
        destruct o as [x|l|l fast m]; cbn [rstep2 rfast rmeth ritems] in *;
          unfold rc2_add, rc2_add_buffer, rc2_add_buffer_custom; rewrite Ek; intros HA; rewrite expect_bind.
        - erewrite expect_ext_always; [apply insert2_phi; [exact Hm|eapply always_bind_true; exact HA]|eapply always_bind_true; exact HA|].
          intros [size lv] _. reflexivity.
        - erewrite expect_ext_always; [apply batch_phi; [exact Hm|eapply always_bind_true; exact HA]|eapply always_bind_true; exact HA|].
          intros [size lv] _. reflexivity.
        - erewrite expect_ext_always; [apply batch_phi; [exact Hm|eapply always_bind_true; exact HA]|eapply always_bind_true; exact HA|].
          intros [size lv] _. reflexivity. }
      assert (forall (s : rc2 F) o, r2_k s = k -> whenever (fun s' => r2_k s' = k) (rstep2 extra s o)) as HK.
      { intros s o Ek.
        destruct o as [x|l|l fast m]; cbn [rstep2]; unfold rc2_add, rc2_add_buffer, rc2_add_buffer_custom;
          (eapply whenever_bind; [apply whenever_true|]); intros [size lv] _; exact Ek. }
      unfold rexec2. induction ops as [|o ops IH]; intros s a Hm Ek HA; cbn [foldM] in *.
      - cbn [expect ritems_of map concat]. replace (INR (n_le [] v)) with 0%R by reflexivity. rewrite Rplus_0_l. lra.
      - eapply Rle_trans.
        { eapply expect_bind_le with (P := fun s' => r2_k s' = k); [exact HA|apply HK; exact Ek|].
          intros s1 Ek1 H. apply IH; [exact (Forall_inv_tail Hm)|exact Ek1|exact H]. }
        cbn beta. eapply Rle_trans; [apply HS; [exact (Forall_inv Hm)|exact Ek|eapply always_bind_true; exact HA]|].
        unfold ritems_of. cbn [map concat]. rewrite n_le_app, plus_INR. apply Req_le. f_equal. ring.
    Qed.
  End Expect.

  Lemma rexec2_expect k v extra ops (s : rc2 F) : Forall (fun o => rmeth o = Default) ops -> r2_k s = k ->
    always (fun _ => True) (rexec2 extra s ops) ->
    expect (fun s' => INR (rank2 (r2_levels s') v)) (rexec2 extra s ops)
    = (INR (rank2 (r2_levels s) v) + INR (n_le (ritems_of ops) v))%R.
  Proof.
    intros Hm Ek HA.
    assert (forall b c s up items, INR (rank2 (((b ++ items, c), s) :: up) v) = (INR (rank2 (((b, c), s) :: up) v) + INR (n_le items v))%R) as Hext.
    { intros. rewrite <- plus_INR. f_equal. unfold rank2. cbn [plain map fst lv_rank]. rewrite n_le_app. lia. }
    apply Rle_antisym.
    - pose proof (@rexec2_phi k v (fun lv a => INR (rank2 lv v) + a)%R (fun _ m => m = Default)) as H.
      eapply Rle_trans with (expect (fun s' => INR (rank2 (r2_levels s') v) + 0)%R (rexec2 extra s ops)).
      { apply Req_le. eapply expect_ext_always; [exact HA|]. intros; cbn beta; ring. }
      eapply Rle_trans; [apply H with (a := 0%R); auto|lra].
      + intros. rewrite Hext. ring.
      + intros fast m n size lv a -> HA'. rewrite expect_plus, expect_const, compress_expect by exact HA'. lra.
    - pose proof (@rexec2_phi k v (fun lv a => - (INR (rank2 lv v) + a))%R (fun _ m => m = Default)) as H.
      apply Ropp_le_cancel.
      eapply Rle_trans with (expect (fun s' => - (INR (rank2 (r2_levels s') v) + 0))%R (rexec2 extra s ops)).
      { apply Req_le. rewrite <- (Rmult_1_l (expect _ _)), Ropp_mult_distr_l, <- expect_scal.
        eapply expect_ext_always; [exact HA|]. intros; cbn beta; ring. }
      eapply Rle_trans; [apply H with (a := 0%R); auto|lra].
      + intros. rewrite Hext. ring.
      + intros fast m n size lv a -> HA'.
        erewrite expect_ext_always with (P := fun _ => True) (g := fun r => ((-1) * INR (rank2 (snd r) v) + - a)%R);
          [|exact HA'|intros; cbn beta; ring].
        rewrite expect_plus, expect_const, expect_scal, compress_expect by exact HA'. lra.
  Qed.

  Lemma rexec2_square k v extra ops (s : rc2 F) a : Forall (fun o => rfast o = false /\ rmeth o = Default) ops -> r2_k s = k ->
    always (fun _ => True) (rexec2 extra s ops) ->
    (expect (fun s' => (INR (rank2 (r2_levels s') v) + a) ^ 2 - INR (lv_compactions2 (plain (r2_levels s')))) (rexec2 extra s ops)
     <= (INR (rank2 (r2_levels s) v) + (INR (n_le (ritems_of ops) v) + a)) ^ 2 - INR (lv_compactions2 (plain (r2_levels s))))%R.
  Proof.
    intros Hm Ek HA.
    apply (@rexec2_phi k v (fun lv a => (INR (rank2 lv v) + a) ^ 2 - INR (lv_compactions2 (plain lv)))%R
             (fun fast m => fast = false /\ m = Default)); auto.
    - intros. f_equal. unfold rank2. cbn [plain map fst lv_rank]. rewrite n_le_app, !plus_INR. ring.
    - intros fast m n size lv a0 [-> ->] HA'. now apply compress_square.
  Qed.
End RC2R.
