(** RCSketch: sequences of insertions. *)
From Coq Require Import List Arith ZArith NArith Lia Bool Permutation Sorted Reals Lra.
From Verif Require Import Base Floats Digest Spec FloatFacts History TDigest RCSketch RCProofs.
Set Implicit Arguments.
Local Open Scope nat_scope.

Scheme Fill_min := Minimality for Fill Sort Prop
  with Drain_min := Minimality for Drain Sort Prop.
Combined Scheme fill_drain_ind from Fill_min, Drain_min.

Section RCH.
  Context {F : Type} {FO : FloatOps F} {FL : FloatLaws F}.

  (** items and mode of a call *)
  Definition ritems (o : rop F) : list F := match o with RAdd x => [x] | RBuf l => l | RCustom l _ _ => l end.
  Definition rfast (o : rop F) : bool := match o with RCustom _ f _ => f | _ => false end.
  Definition rmeth (o : rop F) : method := match o with RCustom _ _ m => m | _ => Default end.
  Definition ritems_of (ops : list (rop F)) : list F := concat (map ritems ops).

  Section Levels.
    Variables (k bs : nat).
    Hypothesis Hk : 1 <= k.
    Hypothesis Hbs : 2 <= bs.

    Lemma fill_drain_small fast m :
      (forall lv (items : list F) lv', Fill k bs fast m lv items lv' -> small bs lv -> small bs lv') /\
      (forall (b : list F) c up lv', Drain k bs fast m b c up lv' -> small bs up -> small bs lv').
    Proof.
      apply fill_drain_ind.
      - intros [|l lv] H; cbn [ensure fst snd]; [|exact H]. repeat constructor. cbn. lia.
      - intros lv b c up items lv1 lv2 E Hne Hl _ IHd _ IHf H. apply IHf, IHd.
        destruct lv as [|l lv]; cbn in E; injection E; intros; subst; [constructor|now apply Forall_inv_tail in H].
      - intros b c up Hl H. now constructor.
      - intros b c up i c' lo out up' lv Hl Hi Hc _ IHf _ IHd H. auto.
    Qed.

    (** one call, as fillings of the bottom buffer by consecutive chunks *)
    Inductive Feed (fast : bool) (m : method) : list level -> list F -> list level -> Prop :=
    | Feed_nil lv : Feed fast m lv [] lv
    | Feed_chunk lv chunk lv1 items lv2 :
        Fill k bs fast m lv chunk lv1 -> Feed fast m lv1 items lv2 -> Feed fast m lv (chunk ++ items) lv2.

    Lemma rc_fuel_S lv n : exists f, rc_fuel (F := F) bs lv n = S f /\ rc_fuel bs lv n = S f.
    Proof. unfold rc_fuel. eexists. rewrite Nat.add_succ_r. split; reflexivity. Qed.

    Lemma insert_one_whenever fast m lv (x : F) : small bs lv ->
      whenever (Fill k bs fast m lv [x]) (insert_one k bs fast m (rc_fuel bs lv 1) lv x).
    Proof.
      intros Hs. destruct (rc_fuel_S lv 1) as (f & -> & _).
      rewrite insert_one_fill by auto. apply fill_drain_whenever.
    Qed.

    Lemma rstep_whenever (s : rc F) (o : rop F) : rc_k s = k -> rc_size s = bs -> small bs (rc_levels s) ->
      whenever (fun s' => rc_k s' = k /\ rc_size s' = bs /\ small bs (rc_levels s') /\
                          Feed (rfast o) (rmeth o) (rc_levels s) (ritems o) (rc_levels s') /\
                          rc_count s' = (rc_count s + Z.of_nat (length (ritems o)))%Z) (rstep s o).
    Proof.
      intros Ek Eb Hs.
      assert (forall l fast m, whenever (fun lv' => small bs lv' /\ Feed fast m (rc_levels s) l lv')
                (rc_chunks s l fast m)) as HC.
      { intros l fast m. unfold rc_chunks. rewrite Ek, Eb.
        assert (1 <= bs / 2) as Hc by (apply Nat.div_le_lower_bound; lia).
        destruct (bs / 2) as [|c] eqn:Ec; [lia|]. cbn [chunks bind].
        pose proof (chunks_list_concat l Hc) as El. revert El.
        generalize (chunks_list (S c) l). intros cs <-. generalize (rc_levels s) Hs. clear Ec Hc.
        induction cs as [|ch cs IH]; intros lv Hsm; cbn [foldM concat].
        - cbn. split; auto. constructor.
        - eapply whenever_bind; [apply fill_drain_whenever|]. intros lv1 H1.
          pose proof (proj1 (fill_drain_small fast m) _ _ _ H1 Hsm) as Hs1.
          eapply whenever_mono; [apply IH; exact Hs1|]. intros lv2 [A1 A2]. split; auto.
          econstructor; eauto. }
      destruct o as [x|l|l fast m]; cbn [rstep ritems rfast rmeth].
      - unfold rc_add. rewrite Ek, Eb. eapply whenever_bind; [apply insert_one_whenever; auto|].
        intros lv H. cbn [whenever rc_with rc_k rc_size rc_levels rc_count]. repeat split; auto.
        + eapply (proj1 (fill_drain_small _ _)); eassumption.
        + change [x] with ([x] ++ []). econstructor; [exact H|constructor].
      - unfold rc_add_buffer. eapply whenever_bind; [apply HC|].
        intros lv [H1 H2]. cbn [whenever rc_with rc_k rc_size rc_levels rc_count]. repeat split; auto.
      - unfold rc_add_buffer_custom. eapply whenever_bind; [apply HC|].
        intros lv [H1 H2]. cbn [whenever rc_with rc_k rc_size rc_levels rc_count]. repeat split; auto.
    Qed.

    (** an invariant of filling is an invariant of every sequence of calls in the allowed modes *)
    Lemma rexec_whenever (mode : bool -> method -> Prop) (I : list level -> list F -> Prop) :
      (forall fast m lv its chunk lv', mode fast m -> small bs lv -> I lv its -> Fill k bs fast m lv chunk lv' ->
         I lv' (its ++ chunk)) ->
      forall ops (s : rc F) its, Forall (fun o => mode (rfast o) (rmeth o)) ops ->
      rc_k s = k -> rc_size s = bs -> small bs (rc_levels s) -> I (rc_levels s) its ->
      whenever (fun s' => rc_k s' = k /\ rc_size s' = bs /\ small bs (rc_levels s') /\
                          I (rc_levels s') (its ++ ritems_of ops) /\
                          rc_count s' = (rc_count s + Z.of_nat (length (ritems_of ops)))%Z) (rexec s ops).
    Proof.
      intros HI. unfold rexec.
      assert (forall fast m lv items lv', Feed fast m lv items lv' -> mode fast m -> small bs lv -> forall its,
                I lv its -> I lv' (its ++ items)) as HF.
      { intros fast m lv items lv' H Hm. induction H as [lv|lv chunk lv1 items lv2 H1 H2 IH]; intros Hs its Hi.
        - now rewrite app_nil_r.
        - rewrite app_assoc. apply IH.
          + eapply (proj1 (fill_drain_small _ _)); eassumption.
          + eapply HI; eauto. }
      induction ops as [|o ops IH]; intros s its Hm Ek Eb Hs Hi; cbn [foldM].
      - cbn. rewrite app_nil_r, Z.add_0_r. auto.
      - eapply whenever_bind; [apply rstep_whenever; auto|].
        intros s1 (A1 & A2 & A3 & A4 & A5).
        pose proof (Forall_inv Hm) as Hm1. apply Forall_inv_tail in Hm.
        eapply whenever_mono; [apply (IH s1 (its ++ ritems o)); auto; eapply HF; eauto|].
        intros s2 (B1 & B2 & B3 & B4 & B5). unfold ritems_of in *. cbn [map concat].
        rewrite <- app_assoc in B4. repeat split; auto.
        rewrite B5, A5, app_length. lia.
    Qed.

    (** *** no panic, no divergence *)
    Lemma fill_always nmax P fast m lv (items : list F) n :
      (fast = false -> safe k bs nmax) -> keeps m P ->
      small bs lv -> all_in P lv -> Forall P items -> fits k lv n -> n + length items <= nmax ->
      always (fun lv' => small bs lv' /\ all_in P lv' /\ fits k lv' (n + length items))
             (fill k bs fast m (rc_fuel bs lv (length items)) lv items).
    Proof.
      intros Hs HP H1 H2 H3 H4 H5.
      eapply always_mono; [eapply (proj1 (@fill_drain_always F FO FL k bs fast m nmax P _ Hk Hbs Hs HP)); eauto|].
      cbn. tauto.
    Qed.

    Lemma insert_one_always nmax P fast m lv (x : F) n :
      (fast = false -> safe k bs nmax) -> keeps m P ->
      small bs lv -> all_in P lv -> P x -> fits k lv n -> n + 1 <= nmax ->
      always (fun lv' => small bs lv' /\ all_in P lv' /\ fits k lv' (n + 1))
             (insert_one k bs fast m (rc_fuel bs lv 1) lv x).
    Proof.
      intros Hs HP H1 H2 H3 H4 H5. destruct (rc_fuel_S lv 1) as (f & E & _). rewrite E.
      rewrite insert_one_fill by auto.
      eapply always_mono; [eapply (proj1 (@fill_drain_always F FO FL k bs fast m nmax P _ Hk Hbs Hs HP)) with (n := n); eauto|].
      - unfold rc_fuel in E. cbn [length]. lia.
      - cbn. tauto.
    Qed.

    Lemma rstep_always nmax P (s : rc F) (o : rop F) n :
      (rfast o = false -> safe k bs nmax) -> keeps (rmeth o) P ->
      rc_k s = k -> rc_size s = bs -> small bs (rc_levels s) -> all_in P (rc_levels s) -> fits k (rc_levels s) n ->
      Forall P (ritems o) -> n + length (ritems o) <= nmax ->
      always (fun s' => rc_k s' = k /\ rc_size s' = bs /\ small bs (rc_levels s') /\ all_in P (rc_levels s') /\
                        fits k (rc_levels s') (n + length (ritems o)) /\
                        rc_count s' = (rc_count s + Z.of_nat (length (ritems o)))%Z) (rstep s o).
    Proof.
      intros Hs HP Ek Eb Hsm Hin Hfit Hit Hn.
      assert (forall l, (rfast o = false -> safe k bs nmax) -> Forall P l -> n + length l <= nmax ->
                always (fun lv' => small bs lv' /\ all_in P lv' /\ fits k lv' (n + length l))
                (rc_chunks s l (rfast o) (rmeth o))) as HC.
      { intros l _ Hl Hnl. unfold rc_chunks. rewrite Ek, Eb.
        assert (1 <= bs / 2) as Hc by (apply Nat.div_le_lower_bound; lia).
        destruct (bs / 2) as [|c] eqn:Ec; [lia|]. cbn [chunks bind].
        pose proof (chunks_list_concat l Hc) as El. revert El.
        generalize (chunks_list (S c) l). intros cs <-. revert Hl Hnl. clear Ec Hc Hn.
        revert Hsm Hin Hfit. generalize (rc_levels s) n. clear n.
        induction cs as [|ch cs IH]; intros lv n Hsm Hin Hfit Hl Hnl; cbn [foldM concat] in *.
        - cbn. rewrite Nat.add_0_r. auto.
        - apply Forall_app in Hl as [Hl1 Hl2]. rewrite app_length in Hnl.
          eapply always_bind; [eapply fill_always with (nmax := nmax) (n := n); eauto; lia|].
          intros lv1 (A1 & A2 & A3). eapply always_mono; [apply (IH lv1 (n + length ch)); auto; lia|].
          cbn beta. intros lv2 (B1 & B2 & B3). rewrite app_length, Nat.add_assoc. auto. }
      destruct o as [x|l|l fast m]; cbn [rstep ritems rfast rmeth] in *.
      - unfold rc_add. rewrite Ek, Eb. eapply always_bind.
        + eapply insert_one_always with (nmax := nmax) (n := n); eauto. now apply Forall_inv in Hit.
        + intros lv (A1 & A2 & A3). cbn. auto 10.
      - unfold rc_add_buffer. eapply always_bind; [apply HC; auto|]. intros lv (A1 & A2 & A3). cbn. auto 10.
      - unfold rc_add_buffer_custom. eapply always_bind; [apply HC; auto|]. intros lv (A1 & A2 & A3). cbn. auto 10.
    Qed.

    Lemma rexec_always nmax P : forall ops (s : rc F) n,
      (Forall (fun o => rfast o = true) ops \/ safe k bs nmax) -> Forall (fun o => keeps (rmeth o) P) ops ->
      rc_k s = k -> rc_size s = bs -> small bs (rc_levels s) -> all_in P (rc_levels s) -> fits k (rc_levels s) n ->
      Forall P (ritems_of ops) -> n + length (ritems_of ops) <= nmax ->
      always (fun s' => rc_k s' = k /\ rc_size s' = bs /\ small bs (rc_levels s') /\ all_in P (rc_levels s') /\
                        fits k (rc_levels s') (n + length (ritems_of ops)) /\
                        rc_count s' = (rc_count s + Z.of_nat (length (ritems_of ops)))%Z) (rexec s ops).
    Proof.
      unfold rexec, ritems_of.
      induction ops as [|o ops IH]; intros s n Hmode HP Ek Eb Hsm Hin Hfit Hit Hn; cbn [foldM map concat] in *.
      - cbn. rewrite Nat.add_0_r, Z.add_0_r. auto 10.
      - apply Forall_app in Hit as [Hit1 Hit2]. rewrite app_length in Hn.
        pose proof (Forall_inv HP) as HP1. apply Forall_inv_tail in HP.
        eapply always_bind; [eapply rstep_always with (nmax := nmax) (P := P) (n := n); eauto; try lia|].
        { intros Hf. destruct Hmode as [Hm|]; [|assumption]. apply Forall_inv in Hm. congruence. }
        intros s1 (A1 & A2 & A3 & A4 & A5 & A6).
        eapply always_mono; [apply (IH s1 (n + length (ritems o))); auto; try lia|].
        { destruct Hmode as [Hm|]; [left; now apply Forall_inv_tail in Hm|now right]. }
        cbn beta. intros s2 (B1 & B2 & B3 & B4 & B5 & B6). repeat split; auto.
        + rewrite app_length, Nat.add_assoc. exact B5.
        + rewrite B6, A6, app_length. lia.
    Qed.
  End Levels.

  (** no NaN is preserved by the default compaction *)
  Lemma keeps_default : keeps Default (fun x : F => fisnan x = false).
  Proof.
    split; auto. intros hi out [ch ->] H. apply Forall_forall. intros x Hx.
    apply every_other_In in Hx. rewrite Forall_forall in H. auto.
  Qed.
  Lemma keeps_default_P (P : F -> Prop) : (forall x, P x -> fisnan x = false) -> keeps Default P.
  Proof.
    split; auto. intros hi out [ch ->] HP. apply Forall_forall. intros x Hx.
    apply every_other_In in Hx. rewrite Forall_forall in HP. auto.
  Qed.

  (** ** buffer size *)
  (** the documented size: 2k sections, one per doubling of the input length, at least 2k *)
  Definition spec_size (n k : nat) : nat := Nat.max (2 * k * Nat.log2_up (n / k)) (2 * k).

  (** what the float [x.log2().ceil()] must compute on the integer [j]: the exact ceiling, and for j = 0 a
      value that cannot be converted to [usize] (the code relies on log2(0) = -infinity) *)
  Definition log2_ok (lg : F -> F) (k j : nat) : Prop :=
    (1 <= j -> fval (lg (fof_nat j)) = XFin (INR (Nat.log2_up j))) /\
    (j = 0 -> ftoZ (fmul (fmul (fofZ 2) (fof_nat k)) (lg (fof_nat 0))) = None).

  Lemma calc_buffer_size_val lg n k : 1 <= k -> log2_ok lg k (n / k) ->
    (Z.of_nat (2 * k * Nat.log2_up (n / k)) <= fint)%Z -> (Z.of_nat (2 * k) <= fint)%Z ->
    (Z.of_nat (2 * k * Nat.log2_up (n / k)) < 2 ^ 64)%Z ->
    calc_buffer_size lg n k = Ret (spec_size n k).
  Proof.
    intros Hk [L1 L0] Hf Hf2 H64. unfold calc_buffer_size, spec_size.
    destruct k as [|k']; [lia|]. remember (S k') as k. f_equal. f_equal.
    destruct (n / k) as [|j] eqn:Ej.
    - change (Nat.log2_up 0) with 0. rewrite Nat.mul_0_r.
      rewrite (L0 eq_refl). reflexivity.
    - pose proof (L1 ltac:(lia)) as Hlg.
      set (L := Nat.log2_up (S j)) in *.
      assert (fval (fmul (fofZ 2) (fof_nat k)) = XFin (INR (2 * k))) as H1.
      { erewrite fmul_fin; [|apply fval_f2|apply fval_nat; lia].
        rewrite <- (fval_nat (2 * k) Hf2). rewrite fval_nat by lia. rewrite mult_INR. apply frnd_exact.
        change 2%R with (INR 2). rewrite <- mult_INR. now apply fexact_nat. }
      assert (fval (fmul (fmul (fofZ 2) (fof_nat k)) (lg (fof_nat (S j)))) = XFin (INR (2 * k * L))) as H2.
      { erewrite fmul_fin; [|exact H1|exact Hlg]. rewrite <- mult_INR. apply frnd_exact. now apply fexact_nat. }
      rewrite (ftoZ_fin H2).
      + rewrite INR_IZR_INZ, Flocq.Core.Raux.Ztrunc_IZR. lia.
      + rewrite INR_IZR_INZ. split; apply IZR_lt; lia.
  Qed.

  (** within the declared input length the compaction index never underflows, and never cuts below half the buffer *)
  Lemma spec_size_section n k c : 1 <= k -> k * N.to_nat c + spec_size n k <= n ->
    2 * ((trailing_ones c + 1) * k) <= spec_size n k /\ N.to_nat c + 2 <= n / k.
  Proof.
    intros Hk H. unfold spec_size in *. set (L := Nat.log2_up (n / k)) in *.
    assert (N.to_nat c + 2 <= n / k) as H2.
    { apply Nat.div_le_lower_bound; [lia|]. nia. }
    split; [|exact H2].
    assert (1 < n / k) as Hj by lia.
    pose proof (Nat.log2_up_spec _ Hj) as [_ HL]. fold L in HL.
    assert (1 <= L) as HL1.
    { unfold L. change 1 with (Nat.log2_up 2). apply Nat.log2_up_le_mono. lia. }
    assert (N.to_nat c + 2 * L <= n / k) as H3.
    { apply Nat.div_le_lower_bound; [lia|]. nia. }
    pose proof (trailing_ones_bound c) as Ht.
    assert (trailing_ones c < L) as Hlt.
    { apply (Nat.pow_lt_mono_r_iff 2); [lia|].
      apply Nat.le_lt_trans with (N.to_nat c + 1); [|lia].
      replace (N.to_nat c + 1) with (N.to_nat (c + 1)) by lia.
      replace (2 ^ trailing_ones c) with (N.to_nat (2 ^ N.of_nat (trailing_ones c))); [lia|].
      rewrite N2Nat.inj_pow, Nat2N.id. reflexivity. }
    nia.
  Qed.

  Lemma spec_size_safe n k : 1 <= k -> (N.of_nat (n / k) <= u32_max)%N -> safe k (spec_size n k) n.
  Proof.
    intros Hk Hu c Hc. destruct (@spec_size_section n k c Hk Hc) as [H1 H2]. split; lia.
  Qed.

  Lemma spec_size_ge n k : 1 <= k -> 2 <= spec_size n k /\ 2 * k <= spec_size n k.
  Proof. intros Hk. unfold spec_size. lia. Qed.
End RCH.
