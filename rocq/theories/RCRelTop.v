(** RCSketch: relative rank error of whole sequences of calls. *)
From Coq Require Import List Arith ZArith NArith Lia Bool Permutation Sorted Reals Lra.
From Verif Require Import Base Floats Digest Spec FloatFacts History TDigest RCSketch RCProofs RCHist RCRank RCExpect RCTop RCQuery RCObs RCRel.
Set Implicit Arguments.
Local Open Scope nat_scope.

Lemma bind_ret_r {A} (m : M A) : bind m (fun a => Ret a) = m.
Proof.
  induction m as [a| | |k IH]; cbn [bind]; auto. f_equal. apply FunctionalExtensionality.functional_extensionality. exact IH.
Qed.
Lemma foldM_app_eq {S A} (f : S -> A -> M S) l1 l2 s : foldM f s (l1 ++ l2) = bind (foldM f s l1) (fun s' => foldM f s' l2).
Proof.
  revert s. induction l1 as [|a l1 IH]; intros s; [reflexivity|]. cbn [foldM app]. rewrite bind_assoc.
  apply bind_ext. intros s'. apply IH.
Qed.
Lemma whenever_map {A B} (P : B -> Prop) (f : A -> B) (m : M A) :
  whenever P (bind m (fun a => Ret (f a))) <-> whenever (fun a => P (f a)) m.
Proof. induction m as [a| | |k IH]; cbn [bind whenever]; try tauto. split; intros H b; apply IH, H. Qed.
Lemma always_map {A B} (P : B -> Prop) (f : A -> B) (m : M A) :
  always P (bind m (fun a => Ret (f a))) <-> always (fun a => P (f a)) m.
Proof. rewrite always_bind_iff. cbn [always]. tauto. Qed.
Lemma expect_map {A B} (g : B -> R) (f : A -> B) (m : M A) :
  expect g (bind m (fun a => Ret (f a))) = expect (fun a => g (f a)) m.
Proof. rewrite expect_bind. reflexivity. Qed.

Section RCRT.
  Context {F : Type} {FO : FloatOps F} {FL : FloatLaws F}.
  Notation level := (@level F).
  Notation glevel := (@glevel F).

  Section Steps.
    Variables (k bs : nat) (v : F).
    Hypothesis Hk : 1 <= k.
    Hypothesis Hbs : 2 <= bs.

    (** a call as fillings of the bottom level: chunks, each with its extra fuel *)
    Definition steps (o : rop F) : list (nat * list F) :=
      match o with
      | RAdd x => [(2, [x])]
      | RBuf l => map (pair 0) (chunks_list (bs / 2) l)
      | RCustom l _ _ => map (pair 0) (chunks_list (bs / 2) l)
      end.
    Definition fstep (lv : list level) (st : nat * list F) : M (list level) :=
      fill k bs false Default (fst st + rc_fuel bs lv (length (snd st))) lv (snd st).
    Definition gstep (lv : list glevel) (st : nat * list F) : M (list glevel) :=
      gfill k bs v (fst st + rc_fuel bs (erase lv) (length (snd st))) lv (snd st).

    Lemma half_pos : 1 <= bs / 2.
    Proof. apply Nat.div_le_lower_bound; lia. Qed.

    Lemma steps_items ops : concat (map snd (concat (map steps ops))) = ritems_of ops.
    Proof.
      assert (forall l : list F, concat (map snd (map (pair 0) (chunks_list (bs / 2) l))) = l) as H.
      { intros l. rewrite map_map. cbn [snd]. rewrite map_id. apply chunks_list_concat, half_pos. }
      unfold ritems_of. induction ops as [|o ops IH]; [reflexivity|]. cbn [map concat]. rewrite map_app, concat_app, IH. f_equal.
      destruct o as [x|l|l f m]; cbn [steps ritems]; auto.
    Qed.

    Lemma rstep_levels (s : rc F) o : rfast o = false -> rmeth o = Default -> rc_k s = k -> rc_size s = bs -> small bs (rc_levels s) ->
      (do s' <- rstep s o; Ret (rc_levels s')) = foldM fstep (rc_levels s) (steps o).
    Proof.
      intros Hf Hm Ek Eb Hs.
      assert (forall l, rc_chunks s l false Default = foldM fstep (rc_levels s) (map (pair 0) (chunks_list (bs / 2) l))) as HC.
      { intros l. unfold rc_chunks. rewrite Ek, Eb. pose proof half_pos as Hc.
        destruct (bs / 2) as [|c] eqn:Ec; [lia|]. cbn [chunks bind]. generalize (chunks_list (S c) l) (rc_levels s).
        intros cs. induction cs as [|ch cs IH]; intros lv; [reflexivity|]. cbn [foldM map]. unfold fstep at 1. cbn [fst snd].
        rewrite Nat.add_0_l. apply bind_ext. intros lv'. apply IH. }
      destruct o as [x|l|l f m]; cbn [rstep steps rfast rmeth] in *.
      - unfold rc_add. rewrite Ek, Eb, bind_assoc. cbn [foldM bind rc_with rc_levels]. rewrite !bind_ret_r. unfold fstep. cbn [fst snd length].
        destruct (rc_fuel_S bs (rc_levels s) 1) as (fu & -> & _). rewrite insert_one_fill by auto. reflexivity.
      - unfold rc_add_buffer. rewrite bind_assoc. cbn [bind rc_with rc_levels]. rewrite bind_ret_r. apply HC.
      - subst. unfold rc_add_buffer_custom. rewrite bind_assoc. cbn [bind rc_with rc_levels]. rewrite bind_ret_r. apply HC.
    Qed.

    Lemma rexec_levels ops : forall s : rc F, default_mode ops -> rc_k s = k -> rc_size s = bs -> small bs (rc_levels s) ->
      (do s' <- rexec s ops; Ret (rc_levels s')) = foldM fstep (rc_levels s) (concat (map steps ops)).
    Proof.
      unfold rexec. induction ops as [|o ops IH]; intros s Hm Ek Eb Hs; [reflexivity|].
      cbn [foldM map concat]. rewrite foldM_app_eq, bind_assoc.
      pose proof (Forall_inv Hm) as [Hf Hd]. apply Forall_inv_tail in Hm.
      rewrite <- rstep_levels by auto. rewrite bind_assoc. cbn [bind].
      apply bind_ext_whenever. eapply whenever_mono; [apply (@rstep_whenever F FO FL k bs Hk Hbs s o); auto|].
      cbn beta. intros s1 (A1 & A2 & A3 & _). apply IH; auto.
    Qed.

    Lemma erase_fold sts : forall lv, (do l <- foldM gstep lv sts; Ret (erase l)) = foldM fstep (erase lv) sts.
    Proof.
      induction sts as [|st sts IH]; intros lv; [reflexivity|]. cbn [foldM]. rewrite bind_assoc.
      unfold fstep at 1. rewrite <- (proj1 (@erase_gfill F FO k bs v _)). rewrite bind_assoc. unfold gstep at 1.
      apply bind_ext. intros l. cbn [bind]. apply IH.
    Qed.

    Lemma fold_always (sts : list (nat * list F)) lv : always (fun _ => True) (foldM fstep (erase lv) sts) ->
      always (fun _ => True) (foldM gstep lv sts).
    Proof. rewrite <- erase_fold, always_map. auto. Qed.

    Lemma fold_charged nmax q T : k * (T + 1) <= bs ->
      (forall c, k * N.to_nat c + bs <= nmax -> (trailing_ones c + 1) * k + q <= bs /\ (c + 1 < 2 ^ N.of_nat T)%N) ->
      forall sts lv n R, small bs (erase lv) -> charged k bs v q T lv n R -> n + length (concat (map snd sts)) <= nmax ->
      whenever (fun lv' => charged k bs v q T lv' (n + length (concat (map snd sts))) (R + n_le (concat (map snd sts)) v))
               (foldM gstep lv sts).
    Proof.
      intros HT Hr. induction sts as [|st sts IH]; intros lv n R Hs Hc Hn; cbn [foldM map concat] in *.
      - cbn [whenever length]. change (n_le [] v) with 0. now rewrite !Nat.add_0_r.
      - rewrite app_length in *. rewrite n_le_app, !Nat.add_assoc.
        eapply whenever_bind.
        + unfold gstep. eapply (proj1 (@gfill_charged F FO FL k bs v nmax q T Hk Hbs HT Hr _)); eauto. lia.
        + intros lv1 [C1 C2]. apply IH; auto. lia.
    Qed.

    Lemma fold_expect h sts : forall lv, always (fun _ => True) (foldM gstep lv sts) ->
      expect (fun lv' => INR (rank_upto v h lv')) (foldM gstep lv sts)
      = (INR (rank_upto v h lv) + INR (n_le (concat (map snd sts)) v))%R.
    Proof.
      induction sts as [|st sts IH]; intros lv HA; cbn [foldM map concat] in *.
      - cbn [expect]. change (INR (n_le [] v)) with 0%R. lra.
      - erewrite expect_bind_eq with (P := fun _ => True)
          (h := fun lv' => (INR (rank_upto v h lv') + INR (n_le (concat (map snd sts)) v))%R).
        2: exact HA.
        2: apply whenever_true.
        2: { intros lv' _ H. apply IH; exact H. }
        rewrite expect_plus, expect_const by (eapply always_bind_true; exact HA).
        unfold gstep at 1. rewrite (proj1 (@gfill_expect F FO FL k bs v _)) by (eapply always_bind_true; exact HA).
        rewrite n_le_app, plus_INR. lra.
    Qed.

    Lemma fold_square sts : forall lv a, always (fun _ => True) (foldM gstep lv sts) ->
      (expect (fun lv' => (INR (lv_rank (erase lv') v) + a) ^ 2 - INR (important2 lv')) (foldM gstep lv sts)
       <= (INR (lv_rank (erase lv) v) + INR (n_le (concat (map snd sts)) v) + a) ^ 2 - INR (important2 lv))%R.
    Proof.
      induction sts as [|st sts IH]; intros lv a HA; cbn [foldM map concat] in *.
      - cbn [expect]. change (INR (n_le [] v)) with 0%R. apply Req_le. ring.
      - eapply Rle_trans.
        { eapply expect_bind_le with (P := fun _ => True)
            (h := fun lv' => ((INR (lv_rank (erase lv') v) + (INR (n_le (concat (map snd sts)) v) + a)) ^ 2
                              - INR (important2 lv'))%R); [exact HA|apply whenever_true|].
          intros lv' _ H. eapply Rle_trans; [apply IH; exact H|]. apply Req_le. ring. }
        eapply Rle_trans; [apply (proj1 (@gfill_square F FO FL k bs v Hk Hbs _)); eapply always_bind_true; exact HA|].
        rewrite n_le_app, plus_INR. apply Req_le. ring.
    Qed.

    Lemma expect_ranks2 sts h : always (fun _ => True) (foldM gstep [] sts) ->
      expect (fun lv' => INR (ranks2 v h lv')) (foldM gstep [] sts) = ((2 ^ h - 1) * INR (n_le (concat (map snd sts)) v))%R.
    Proof.
      intros HA. induction h as [|h IH].
      - cbn [ranks2 INR pow]. rewrite expect_const by exact HA. ring.
      - erewrite expect_ext_always with (g := fun lv' => (2 ^ h * INR (rank_upto v h lv') + INR (ranks2 v h lv'))%R); [|exact HA|].
        + rewrite expect_plus, expect_scal, IH, fold_expect by exact HA.
          replace (rank_upto v h []) with 0 by (destruct h; reflexivity). cbn [INR pow]. ring.
        + cbn beta. intros lv _. cbn [ranks2]. rewrite plus_INR, mult_INR, pow_INR. change (INR 2) with 2%R. ring.
    Qed.
  End Steps.

  (** *** from the empty sketch *)
  Lemma spec_size_room n k : 1 <= k ->
    exists T, k * (T + 1) <= spec_size n k /\
      forall c, k * N.to_nat c + spec_size n k <= n ->
        (trailing_ones c + 1) * k + spec_size n k / 2 <= spec_size n k /\ (c + 1 < 2 ^ N.of_nat T)%N.
  Proof.
    intros Hk. exists (Nat.max 1 (Nat.log2_up (n / k))). split.
    - unfold spec_size. destruct (Nat.max_spec 1 (Nat.log2_up (n / k))) as [[H ->]|[H ->]]; nia.
    - intros c Hc. destruct (@spec_size_section n k c Hk Hc) as [H1 H2]. split.
      + assert ((trailing_ones c + 1) * k <= spec_size n k / 2) by (apply Nat.div_le_lower_bound; lia).
        pose proof (Nat.mul_div_le (spec_size n k) 2). lia.
      + assert (1 < n / k) as Hj by lia. pose proof (Nat.log2_up_spec _ Hj) as [_ HL].
        assert (N.to_nat c + 1 < 2 ^ Nat.max 1 (Nat.log2_up (n / k))) as H3.
        { apply Nat.lt_le_trans with (n / k); [lia|]. eapply Nat.le_trans; [exact HL|]. apply Nat.pow_le_mono_r; lia. }
        replace (2 ^ N.of_nat (Nat.max 1 (Nat.log2_up (n / k))))%N
          with (N.of_nat (2 ^ Nat.max 1 (Nat.log2_up (n / k)))); [lia|].
        rewrite <- (N2Nat.id (2 ^ _)). f_equal. rewrite N2Nat.inj_pow, Nat2N.id. reflexivity.
  Qed.

  Section Fresh.
    Variables (n k : nat) (ops : list (rop F)) (v : F) (h : nat).
    Hypothesis Hk : 1 <= k.
    Hypothesis Hm : default_mode ops.
    Hypothesis Hn : length (ritems_of ops) <= n.
    Notation bs := (spec_size n k).
    Notation R := (n_le (ritems_of ops) v).
    (* after [h] halvings at most bs/2 items at most [v] are left *)
    Hypothesis Hh : R * (k + 1) ^ h <= bs / 2 * (2 * k) ^ h.

    Lemma fresh_fold : (do s' <- rexec (rc_fresh n k) ops; Ret (rc_levels s'))
      = (do l <- foldM (gstep k bs v) [] (concat (map (steps bs) ops)); Ret (erase l)).
    Proof.
      destruct (spec_size_ge n Hk) as [Hb _].
      rewrite (@rexec_levels k bs Hk Hb ops (rc_fresh n k)); auto; [|constructor]. symmetry. apply (erase_fold k bs v _ []).
    Qed.

    Lemma fresh_charged : exists T, k * (T + 1) <= bs /\
      whenever (fun l => charged k bs v (bs / 2) T l (length (ritems_of ops)) R)
               (foldM (gstep k bs v) [] (concat (map (steps bs) ops))).
    Proof.
      destruct (spec_size_ge n Hk) as [Hb _]. destruct (spec_size_room n Hk) as (T & HT & Hr). exists T. split; [exact HT|].
      pose proof (@fold_charged k bs v Hk Hb n (bs / 2) T HT Hr (concat (map (steps bs) ops)) [] 0 0) as H.
      rewrite (@steps_items k bs Hk Hb ops) in H. cbn [Nat.add] in H. apply H; [constructor|split; reflexivity|exact Hn].
    Qed.

    Lemma fresh_worst :
      whenever (fun s => (Z.of_nat k ^ Z.of_nat h * Z.abs (Z.of_nat (lv_rank (rc_levels s) v) - Z.of_nat R)
                          <= Z.of_nat R * ((Z.of_nat k + 1) ^ Z.of_nat h - Z.of_nat k ^ Z.of_nat h))%Z) (rexec (rc_fresh n k) ops).
    Proof.
      destruct fresh_charged as (T & HT & HC).
      rewrite <- (whenever_map (fun lv => (Z.of_nat k ^ Z.of_nat h * Z.abs (Z.of_nat (lv_rank lv v) - Z.of_nat R)
                          <= Z.of_nat R * ((Z.of_nat k + 1) ^ Z.of_nat h - Z.of_nat k ^ Z.of_nat h))%Z)).
      rewrite fresh_fold, whenever_map. eapply whenever_mono; [exact HC|]. cbn beta. intros l Hl.
      destruct (spec_size_ge n Hk) as [Hb _]. exact (charged_error v (bs / 2) T Hk Hb HT h l _ _ Hl Hh).
    Qed.

    Lemma fresh_square : always (fun _ => True) (rexec (rc_fresh n k) ops) ->
      (INR k * expect (fun s => (INR (lv_rank (rc_levels s) v) - INR R) ^ 2) (rexec (rc_fresh n k) ops) <= (2 ^ h - 1) * INR R)%R.
    Proof.
      intros HA. destruct fresh_charged as (T & HT & HC).
      assert (always (fun _ => True) (foldM (gstep k bs v) [] (concat (map (steps bs) ops)))) as HG.
      { assert (always (fun _ => True) (do s' <- rexec (rc_fresh n k) ops; Ret (rc_levels s'))) as H
          by (apply always_map; exact HA).
        rewrite fresh_fold, always_map in H. exact H. }
      rewrite <- (expect_map (fun lv => ((INR (lv_rank lv v) - INR R) ^ 2)%R)), fresh_fold, expect_map.
      destruct (spec_size_ge n Hk) as [Hb _].
      pose proof (@fold_square k bs v Hk Hb (concat (map (steps bs) ops)) [] (- INR R) HG) as Hsq.
      rewrite (@steps_items k bs Hk Hb ops) in Hsq. cbn [erase map lv_rank important2 INR] in Hsq.
      replace ((0 + INR R + - INR R) ^ 2 - 0)%R with 0%R in Hsq by ring.
      unfold Rminus at 1 in Hsq. rewrite expect_plus in Hsq.
      assert (expect (fun l => - INR (important2 l))%R (foldM (gstep k bs v) [] (concat (map (steps bs) ops)))
              = (-1 * expect (fun l => INR (important2 l)) (foldM (gstep k bs v) [] (concat (map (steps bs) ops))))%R) as E.
      { rewrite <- expect_scal. f_equal. apply FunctionalExtensionality.functional_extensionality. intros s. lra. }
      rewrite E in Hsq.
      assert (INR k * expect (fun l => INR (important2 l)) (foldM (gstep k bs v) [] (concat (map (steps bs) ops)))
              <= (2 ^ h - 1) * INR R)%R as Him.
      { rewrite <- (@steps_items k bs Hk Hb ops). rewrite <- (@expect_ranks2 k bs v _ h HG). rewrite <- expect_scal.
        eapply expect_le_always; [exact (@always_whenever_and _ _ _ _ HG HC)|]. cbn beta. intros l [_ Hl].
        rewrite <- mult_INR. apply le_INR. eapply Nat.le_trans; [|apply (given2_ranks2 (k:=k) (bs:=bs)); lia].
        exact (charged_important2 v (bs / 2) T Hk Hb HT h l _ _ Hl Hh). }
      pose proof (pos_INR k) as Hk0.
      assert (expect (fun l => (INR (lv_rank (erase l) v) - INR R) ^ 2) (foldM (gstep k bs v) [] (concat (map (steps bs) ops)))
              <= expect (fun l => INR (important2 l)) (foldM (gstep k bs v) [] (concat (map (steps bs) ops))))%R as H1.
      { unfold Rminus. lra. }
      eapply Rle_trans; [apply Rmult_le_compat_l; [exact Hk0|exact H1]|exact Him].
    Qed.
  End Fresh.

  (** *** what users observe *)
  Lemma default_in_range n k (ops : list (rop F)) : in_range n k ops -> default_mode ops -> length (ritems_of ops) <= n.
  Proof.
    intros [Hf|[H _]] Hm; [|exact H]. destruct ops as [|o ops]; [cbn; lia|].
    apply Forall_inv in Hf. apply Forall_inv in Hm. destruct Hm. congruence.
  Qed.

  Lemma size_val lg n k bs : rc_params lg n k -> calc_buffer_size lg n k = Ret bs -> bs = spec_size n k.
  Proof. intros (Hk & H1 & H2 & H3 & H4) Hc. rewrite calc_buffer_size_val in Hc by assumption. congruence. Qed.

  Lemma rank_relative lg n k (ops : list (rop F)) v bs h : proper lg n k ops -> default_mode ops -> few_levels n k ops ->
    calc_buffer_size lg n k = Ret bs -> n_le (ritems_of ops) v * (k + 1) ^ h <= bs / 2 * (2 * k) ^ h ->
    always (fun z => (Z.of_nat k ^ Z.of_nat h * Z.abs (z - Z.of_nat (n_le (ritems_of ops) v))
                      <= Z.of_nat (n_le (ritems_of ops) v) * ((Z.of_nat k + 1) ^ Z.of_nat h - Z.of_nat k ^ Z.of_nat h))%Z)
           (rank_after lg n k ops v).
  Proof.
    intros Hp Hm Hf Hc Hh. apply rank_after_always; auto using default_mode_method. destruct Hp as (Hp & Hr & Hn).
    rewrite (size_val Hp Hc) in Hh. apply fresh_worst; auto; [apply Hp|]. eapply default_in_range; eauto.
  Qed.

  Lemma rank_relative_square lg n k (ops : list (rop F)) v bs h : proper lg n k ops -> default_mode ops -> few_levels n k ops ->
    calc_buffer_size lg n k = Ret bs -> n_le (ritems_of ops) v * (k + 1) ^ h <= bs / 2 * (2 * k) ^ h ->
    (INR k * expect (fun z => (IZR z - INR (n_le (ritems_of ops) v)) ^ 2) (rank_after lg n k ops v)
     <= (2 ^ h - 1) * INR (n_le (ritems_of ops) v))%R.
  Proof.
    intros Hp Hm Hf Hc Hh. rewrite rank_after_expect by auto using default_mode_method.
    assert (always (fun _ => True) (rexec (rc_fresh n k) ops)) as HA.
    { rewrite <- (@rc_run_val F FO FL lg n k ops) by apply Hp.
      eapply always_mono; [apply rc_run_always; auto using default_mode_method|auto]. }
    destruct Hp as (Hp & Hr & Hn). rewrite (size_val Hp Hc) in Hh.
    assert (1 <= k) as Hk by apply Hp. pose proof (default_in_range Hr Hm) as Hlen.
    pose proof (@fresh_square n k ops v h Hk Hm Hlen Hh HA) as H.
    erewrite expect_ext_always; [exact H|exact HA|]. cbn beta. intros s _. now rewrite <- INR_IZR_INZ.
  Qed.

  (** the two bounds together: k * (bs/2) * MSE <= 2 R^2 (1 + 1/k)^h *)
  Lemma rank_relative_mse lg n k (ops : list (rop F)) v bs h : proper lg n k ops -> default_mode ops -> few_levels n k ops ->
    calc_buffer_size lg n k = Ret bs -> n_le (ritems_of ops) v * (k + 1) ^ S h <= bs / 2 * (2 * k) ^ S h ->
    (INR k * INR (bs / 2) * expect (fun z => (IZR z - INR (n_le (ritems_of ops) v)) ^ 2) (rank_after lg n k ops v)
     <= 2 * INR (n_le (ritems_of ops) v) ^ 2 * (1 + / INR k) ^ h)%R.
  Proof.
    intros Hp Hm Hf Hc Hh. set (R := n_le (ritems_of ops) v) in *. set (q := bs / 2) in *.
    assert (1 <= k) as Hk by apply Hp.
    assert (0 < INR k)%R as Hk0 by (apply lt_0_INR; lia).
    assert (1 <= 1 + / INR k)%R as Hbase by (pose proof (Rinv_0_lt_compat _ Hk0); lra).
    set (X := expect (fun z => ((IZR z - INR R) ^ 2)%R) (rank_after lg n k ops v)).
    (* the least number of halvings *)
    assert (exists h0, h0 <= S h /\ R * (k + 1) ^ h0 <= q * (2 * k) ^ h0 /\
              (h0 = 0 \/ exists h1, h0 = S h1 /\ q * (2 * k) ^ h1 < R * (k + 1) ^ h1)) as (h0 & L1 & L2 & L3).
    { clear -Hh. induction h as [|h IH].
      - destruct (Nat.le_gt_cases R q) as [Hle|Hgt].
        + exists 0. cbn [Nat.pow]. repeat split; auto; lia.
        + exists 1. repeat split; auto. right. exists 0. cbn [Nat.pow]. lia.
      - destruct (Nat.le_gt_cases (R * (k + 1) ^ S h) (q * (2 * k) ^ S h)) as [Hle|Hgt].
        + destruct (IH Hle) as (h0 & A & B & C). exists h0. auto.
        + exists (S (S h)). repeat split; auto. right. exists (S h). auto. }
    pose proof (rank_relative_square v h0 Hp Hm Hf Hc L2) as H. fold R X in H.
    pose proof (pos_INR q) as Hq. pose proof (pos_INR R) as HR.
    destruct L3 as [->|(h1 & -> & L3)].
    - cbn [pow] in H. rewrite Rminus_diag_eq, Rmult_0_l in H by reflexivity.
      apply Rle_trans with 0%R.
      + replace (INR k * INR q * X)%R with (INR q * (INR k * X))%R by ring.
        rewrite <- (Rmult_0_r (INR q)). apply Rmult_le_compat_l; lra.
      + apply Rmult_le_pos; [nra|]. apply pow_le. lra.
    - assert (INR q * 2 ^ h1 <= INR R * (1 + / INR k) ^ h1)%R as H3.
      { apply lt_INR in L3. rewrite !mult_INR, !pow_INR, mult_INR, plus_INR in L3. change (INR 2) with 2%R in L3. change (INR 1) with 1%R in L3.
        replace (1 + / INR k)%R with ((INR k + 1) * / INR k)%R by (field; lra).
        rewrite !Rpow_mult_distr, pow_inv in *.
        assert (0 < INR k ^ h1)%R as Hp1 by (now apply pow_lt).
        apply Rmult_le_reg_r with (INR k ^ h1)%R; [exact Hp1|].
        replace (INR R * ((INR k + 1) ^ h1 * / INR k ^ h1) * INR k ^ h1)%R with (INR R * (INR k + 1) ^ h1)%R by (field; lra).
        lra. }
      assert ((1 + / INR k) ^ h1 <= (1 + / INR k) ^ h)%R as H4 by (apply Rle_pow; [exact Hbase|lia]).
      cbn [pow] in H.
      apply Rle_trans with (INR q * ((2 * 2 ^ h1 - 1) * INR R))%R.
      { replace (INR k * INR q * X)%R with (INR q * (INR k * X))%R by ring. apply Rmult_le_compat_l; lra. }
      apply Rle_trans with (2 * INR R * (INR R * (1 + / INR k) ^ h1))%R; [|nra].
      nra.
  Qed.

  (** (1 + 1/k)^k < 3 *)
  Lemma compound k h : 1 <= k -> h <= k -> ((1 + / INR k) ^ h <= 3)%R.
  Proof.
    intros Hk Hh. assert (0 < INR k)%R as Hk0 by (apply lt_0_INR; lia).
    assert (1 <= 1 + / INR k)%R as Hbase by (pose proof (Rinv_0_lt_compat _ Hk0); lra).
    apply Rle_trans with ((1 + / INR k) ^ k)%R; [apply Rle_pow; auto|].
    apply Rle_trans with (exp 1); [|apply exp_le_3].
    apply Rle_trans with ((exp (/ INR k)) ^ k)%R.
    - apply pow_incr. split; [lra|]. apply exp_ineq1_le.
    - apply Req_le. assert (forall m x, exp x ^ m = exp (INR m * x))%R as E.
      { intros m x. induction m as [|m IH]; [cbn [pow INR]; now rewrite Rmult_0_l, exp_0|].
        cbn [pow]. rewrite IH, <- exp_plus, S_INR. f_equal. ring. }
      rewrite E. f_equal. field. lra.
  Qed.

  Lemma rank_relative_simple lg n k (ops : list (rop F)) v bs : proper lg n k ops -> default_mode ops -> few_levels n k ops ->
    calc_buffer_size lg n k = Ret bs -> n_le (ritems_of ops) v * (k + 1) ^ S k <= bs / 2 * (2 * k) ^ S k ->
    (INR k * INR (bs / 2) * expect (fun z => (IZR z - INR (n_le (ritems_of ops) v)) ^ 2) (rank_after lg n k ops v)
     <= 6 * INR (n_le (ritems_of ops) v) ^ 2)%R.
  Proof.
    intros Hp Hm Hf Hc Hh. eapply Rle_trans; [eapply rank_relative_mse; eauto|].
    assert (1 <= k) as Hk by apply Hp. pose proof (@compound k k Hk (le_n k)) as Hx.
    pose proof (pow2_ge_0 (INR (n_le (ritems_of ops) v))). nra.
  Qed.

  (** probability that the rank is off by at least [t] *)
  Lemma rank_relative_tail lg n k (ops : list (rop F)) v bs t : proper lg n k ops -> default_mode ops -> few_levels n k ops ->
    calc_buffer_size lg n k = Ret bs -> n_le (ritems_of ops) v * (k + 1) ^ S k <= bs / 2 * (2 * k) ^ S k ->
    (INR t ^ 2 * (INR k * INR (bs / 2)) *
       prob (fun z => Z.of_nat t <=? Z.abs (z - Z.of_nat (n_le (ritems_of ops) v)))%Z (rank_after lg n k ops v)
     <= 6 * INR (n_le (ritems_of ops) v) ^ 2)%R.
  Proof.
    intros Hp Hm Hf Hc Hh. eapply Rle_trans; [|eapply rank_relative_simple with (v := v); eauto].
    rewrite (Rmult_comm (INR t ^ 2)). rewrite Rmult_assoc. apply Rmult_le_compat_l.
    - apply Rmult_le_pos; apply pos_INR.
    - apply chebyshev with (P := fun _ => True).
      + apply pos_INR.
      + eapply always_mono; [eapply rank_relative with (h := S k); eauto|auto].
      + intros z _ H. apply Z.leb_le in H. rewrite !INR_IZR_INZ, <- minus_IZR, <- abs_IZR. now apply IZR_le.
  Qed.
End RCRT.
