(** RCSketch: what its users can observe. *)
From Coq Require Import List Arith ZArith NArith Lia Bool Permutation Sorted Reals Lra.
From Verif Require Import Base Floats Digest Spec FloatFacts History TDigest RCSketch RCProofs RCHist RCRank RCExpect RCTop RCQuery.
Set Implicit Arguments.
Local Open Scope nat_scope.

Section RCO.
  Context {F : Type} {FO : FloatOps F} {FL : FloatLaws F}.
  Notation level := (@level F).

  (** [interpolate_rank(v)] after the insertions [ops] *)
  Definition rank_after (lg : F -> F) n k ops v : M Z := do s <- rc_run lg n k ops; interpolate_rank s v.
  (** [est_quantile_at_value(v)], [est_value_at_quantile(q)] after the insertions [ops] *)
  Definition quantile_after (lg : F -> F) n k ops v : M F := do s <- rc_run lg n k ops; rc_est_quantile s v.
  Definition value_after (lg : F -> F) n k ops q : M F := do s <- rc_run lg n k ops; rc_est_value s q.

  Definition non_fast (ops : list (rop F)) : Prop := Forall (fun o => rfast o = false) ops.

  (** conditions that keep the number of levels within the 64 that [interpolate_rank] can handle *)
  Definition few_levels n k (ops : list (rop F)) : Prop :=
    (Nat.even k = true /\ (Z.of_nat (length (ritems_of ops)) < 2 ^ 64)%Z) \/
    (non_fast ops /\ length (ritems_of ops) <= n /\ (N.of_nat (n / k) <= u32_max)%N).

  (** what is assumed of a use of the sketch *)
  Definition proper (lg : F -> F) n k (ops : list (rop F)) : Prop :=
    rc_params lg n k /\ in_range n k ops /\ no_nan (ritems_of ops).

  Lemma tight_short n k (lv : list level) j : 1 <= k -> (N.of_nat (n / k) <= u32_max)%N -> j <= n ->
    tight (spec_size n k) lv j -> length lv <= 64.
  Proof.
    intros Hk Hu Hj HH. destruct lv as [|l0 [|l1 up]]; [cbn; lia|cbn; lia|].
    destruct (spec_size_ge n Hk) as [Hb2 Hbk].
    assert ((spec_size n k - 1) * 7 ^ length up <= 5 ^ length up * (j - 1)) as Hb
      by (eapply tight_levels; eauto).
    destruct (Nat.le_gt_cases (length up) 62) as [Hle|Hgt]; [cbn [length]; lia|exfalso].
    set (h := length up) in *. unfold spec_size in Hb, Hbk. set (L := Nat.log2_up (n / k)) in *.
    set (d := n / k) in *.
    assert (n < k * (d + 1)) as Hn by (unfold d; pose proof (Nat.mul_succ_div_gt n k ltac:(lia)); lia).
    assert (5 ^ h <= 7 ^ h) as H57 by (apply Nat.pow_le_mono_l; lia).
    assert (1 <= 5 ^ h) as H5 by (pose proof (Nat.pow_nonzero 5 h); lia).
    assert (k * L <= Nat.max (2 * k * L) (2 * k) - 1) as HkL.
    { destruct (Nat.eq_dec L 0) as [->|]; nia. }
    assert (k <= Nat.max (2 * k * L) (2 * k) - 1) as Hk1 by lia.
    assert (forall x, k * x <= Nat.max (2 * k * L) (2 * k) - 1 -> x * 7 ^ h <= 5 ^ h * (d + 1)) as Hx.
    { intros x Hx. apply (Nat.mul_le_mono_pos_l _ _ k); [lia|].
      assert (k * x * 7 ^ h <= (Nat.max (2 * k * L) (2 * k) - 1) * 7 ^ h) by (now apply Nat.mul_le_mono_r).
      assert (5 ^ h * (j - 1) <= 5 ^ h * (k * (d + 1))) by (apply Nat.mul_le_mono_l; lia). lia. }
    assert (7 ^ h <= 5 ^ h * (d + 1)) as H1 by (specialize (Hx 1); lia).
    pose proof (Hx L HkL) as H2. clear Hx Hb HkL Hk1.
    assert (2 ^ 29 <= d) as Hd.
    { apply Nat2Z.inj_le. rewrite Nat2Z.inj_pow. apply Nat2Z.inj_le in H1.
      rewrite Nat2Z.inj_mul, !Nat2Z.inj_pow, Nat2Z.inj_add in H1.
      change (Z.of_nat 7) with 7%Z in H1. change (Z.of_nat 5) with 5%Z in H1. change (Z.of_nat 1) with 1%Z in H1.
      change (Z.of_nat 2) with 2%Z. change (Z.of_nat 29) with 29%Z.
      assert (Z.of_nat h = 63 + Z.of_nat (h - 63))%Z as Eh by lia. rewrite Eh in H1.
      rewrite !Z.pow_add_r in H1 by lia.
      assert (5 ^ Z.of_nat (h - 63) <= 7 ^ Z.of_nat (h - 63))%Z as Hp by (apply Z.pow_le_mono_l; lia).
      assert (0 < 5 ^ Z.of_nat (h - 63))%Z as Hp0 by (apply Z.pow_pos_nonneg; lia).
      generalize dependent (5 ^ Z.of_nat (h - 63))%Z. generalize dependent (7 ^ Z.of_nat (h - 63))%Z. intros p7 p5.
      intros. change (7 ^ 63)%Z with 174251498233690814305510551794710260107945042018748343%Z in H1.
      change (5 ^ 63)%Z with 108420217248550443400745280086994171142578125%Z in H1.
      change (2 ^ 29)%Z with 536870912%Z. nia. }
    assert (29 <= L) as HL.
    { unfold L. rewrite <- (Nat.log2_up_pow2 29) by lia. apply Nat.log2_up_le_mono. exact Hd. }
    assert (29 * 7 ^ h <= 5 ^ h * (d + 1)) as H3 by (eapply Nat.le_trans; [|exact H2]; now apply Nat.mul_le_mono_r).
    apply Nat2Z.inj_le in H3. rewrite !Nat2Z.inj_mul, !Nat2Z.inj_pow, Nat2Z.inj_add in H3.
    change (Z.of_nat 7) with 7%Z in H3. change (Z.of_nat 5) with 5%Z in H3. change (Z.of_nat 1) with 1%Z in H3.
    change (Z.of_nat 29) with 29%Z in H3.
    assert (Z.of_nat d <= 4294967295)%Z as Hdz by (unfold u32_max in Hu; lia).
    assert (Z.of_nat h = 63 + Z.of_nat (h - 63))%Z as Eh by lia. rewrite Eh in H3.
    rewrite !Z.pow_add_r in H3 by lia.
    assert (5 ^ Z.of_nat (h - 63) <= 7 ^ Z.of_nat (h - 63))%Z as Hp by (apply Z.pow_le_mono_l; lia).
    assert (0 < 5 ^ Z.of_nat (h - 63))%Z as Hp0 by (apply Z.pow_pos_nonneg; lia).
    generalize dependent (5 ^ Z.of_nat (h - 63))%Z. generalize dependent (7 ^ Z.of_nat (h - 63))%Z. intros p7 p5.
    intros. change (7 ^ 63)%Z with 174251498233690814305510551794710260107945042018748343%Z in H3.
    change (5 ^ 63)%Z with 108420217248550443400745280086994171142578125%Z in H3. nia.
  Qed.

  (** ** no panic *)
  Lemma rc_run_always lg n k ops : proper lg n k ops -> default_method ops ->
    always (fun s => small (spec_size n k) (rc_levels s) /\ rc_count s = Z.of_nat (length (ritems_of ops))) (rc_run lg n k ops).
  Proof. intros (Hp & Hr & Hn) Hm. rewrite rc_run_val by assumption. apply rc_fresh_ok; auto. apply Hp. Qed.

  Lemma few_levels_whenever lg n k ops : rc_params lg n k -> few_levels n k ops ->
    whenever (fun s => length (rc_levels s) <= 64) (rc_run lg n k ops).
  Proof.
    intros Hp Hf. rewrite rc_run_val by assumption. destruct Hp as (Hk & _). destruct Hf as [[He Hz]|(Hm & Hn & Hu)].
    - eapply whenever_mono; [apply rc_halves; auto|]. cbn beta. intros s HH.
      destruct (rc_levels s) as [|l0 [|l1 up]]; [cbn; lia|cbn; lia|].
      destruct (spec_size_ge n Hk) as [Hb2 _].
      assert (spec_size n k * 2 ^ length up <= length (ritems_of ops)) as Hb by (eapply halves_levels with (k := k); eauto).
      destruct (Nat.le_gt_cases (length up) 62) as [Hle|Hgt]; [cbn [length]; lia|exfalso].
      assert (2 * 2 ^ length up <= length (ritems_of ops)) as H2 by (eapply Nat.le_trans; [|exact Hb]; now apply Nat.mul_le_mono_r).
      apply Nat2Z.inj_le in H2. rewrite Nat2Z.inj_mul, Nat2Z.inj_pow in H2. change (Z.of_nat 2) with 2%Z in H2.
      assert (2 ^ 63 <= 2 ^ Z.of_nat (length up))%Z by (apply Z.pow_le_mono_r; lia).
      change (2 ^ 63)%Z with 9223372036854775808%Z in *. change (2 ^ 64)%Z with 18446744073709551616%Z in *. lia.
    - eapply whenever_mono; [apply rc_tight; auto|]. cbn beta. intros s HH. eapply tight_short; eauto.
  Qed.

  (** the rank query returns the weighted count of the held items *)
  Lemma rank_after_always lg n k ops v (P : Z -> Prop) : proper lg n k ops -> default_method ops -> few_levels n k ops ->
    whenever (fun s => P (Z.of_nat (lv_rank (rc_levels s) v))) (rexec (rc_fresh n k) ops) ->
    always P (rank_after lg n k ops v).
  Proof.
    intros Hp Hm Hf HP. unfold rank_after. eapply always_bind.
    - eapply always_whenever_and; [apply rc_run_always; auto|].
      apply whenever_and; [apply few_levels_whenever; auto; apply Hp|]. rewrite rc_run_val by apply Hp. exact HP.
    - intros s [_ [H1 H2]]. rewrite interpolate_rank_val by exact H1. exact H2.
  Qed.

  Lemma rank_after_expect lg n k ops v (f : Z -> R) : proper lg n k ops -> default_method ops -> few_levels n k ops ->
    expect f (rank_after lg n k ops v) = expect (fun s => f (Z.of_nat (lv_rank (rc_levels s) v))) (rexec (rc_fresh n k) ops).
  Proof.
    intros Hp Hm Hf. unfold rank_after. rewrite expect_bind.
    rewrite <- (@rc_run_val F FO FL lg n k ops) by apply Hp.
    eapply expect_ext_always; [eapply always_whenever_and; [apply rc_run_always; eauto|apply few_levels_whenever; eauto; apply Hp]|].
    cbn beta. intros s [_ H]. rewrite interpolate_rank_val by exact H. reflexivity.
  Qed.

  (** ** exact ranks of the smallest items *)
  Lemma rank_smallest lg n k ops v bs : proper lg n k ops -> default_method ops -> few_levels n k ops ->
    calc_buffer_size lg n k = Ret bs -> n_le (ritems_of ops) v <= bs / 2 ->
    always (fun z => z = Z.of_nat (n_le (ritems_of ops) v)) (rank_after lg n k ops v).
  Proof.
    intros Hp Hm Hf Hc Hv. apply rank_after_always; auto. destruct Hp as (Hp & Hr & Hn). 
    assert (bs = spec_size n k) as ->.
    { destruct Hp as (Hk & H1 & H2 & H3 & H4). rewrite calc_buffer_size_val in Hc by assumption. congruence. }
    destruct Hp as (Hk & _).
    eapply whenever_mono; [apply rc_guard; auto; unfold in_range in Hr; tauto|]. cbn beta. intros s HG. f_equal.
    destruct (spec_size_ge n Hk) as [Hb2 _].
    eapply guard_exact; eauto.
  Qed.

  (** ** unbiased *)
  Lemma rank_unbiased lg n k ops v : proper lg n k ops -> default_method ops -> few_levels n k ops ->
    expect IZR (rank_after lg n k ops v) = INR (n_le (ritems_of ops) v).
  Proof.
    intros Hp Hm Hf. rewrite rank_after_expect by assumption. destruct Hp as (Hp & Hr & Hn).
    rewrite <- (@rc_expect F FO FL n k ops v) by (auto; apply Hp).
    f_equal. apply FunctionalExtensionality.functional_extensionality. intros s. now rewrite <- INR_IZR_INZ.
  Qed.

  (** ** rank error *)
  Lemma fits_compactions k (lv : list level) n : fits k lv n -> k * lv_compactions lv <= (2 ^ length lv - 1) * n.
  Proof.
    revert n. induction lv as [|[b c] up IH]; intros n H; cbn [lv_compactions length].
    - rewrite Nat.mul_0_r. apply Nat.le_0_l.
    - destruct H as (r & n' & H1 & H2 & H3 & H4). specialize (IH _ H4). rewrite Nat.pow_succ_r'.
      assert (1 <= 2 ^ length up) as Hp by (pose proof (Nat.pow_nonzero 2 (length up)); lia).
      assert ((2 ^ length up - 1) * n' <= (2 ^ length up - 1) * n) as H5 by (apply Nat.mul_le_mono_l; lia).
      replace (2 * 2 ^ length up - 1) with (1 + 2 * (2 ^ length up - 1)) by lia. lia.
  Qed.

  Lemma rc_fits n k ops (P : F -> Prop) : 1 <= k -> in_range n k ops -> default_method ops -> no_nan (ritems_of ops) ->
    always (fun s => fits k (rc_levels s) (length (ritems_of ops))) (rexec (rc_fresh n k) ops).
  Proof.
    intros Hk Hr Hm Hit. destruct (spec_size_ge n Hk) as [Hb _].
    assert (exists nmax, (fast_mode ops \/ safe k (spec_size n k) nmax) /\ length (ritems_of ops) <= nmax) as (nmax & H1 & H2).
    { destruct Hr as [Hf|[Hn Hu]].
      - exists (length (ritems_of ops)). split; [now left|lia].
      - exists n. split; [right; now apply spec_size_safe|exact Hn]. }
    eapply always_mono.
    - apply (@rexec_always F FO FL k (spec_size n k) Hk Hb nmax (fun x => fisnan x = false) ops (rc_fresh n k) 0); auto; try constructor.
      eapply Forall_impl; [|exact Hm]. intros o ->. apply keeps_default.
    - cbn beta. intros s (_ & _ & A & B & D & C). exact D.
  Qed.

  (** by the compactions counted by the sketch: 2^i for each compaction of level i *)
  Lemma rank_error_counters lg n k ops v : proper lg n k ops -> default_mode ops ->
    always (fun s => (Z.abs (Z.of_nat (lv_rank (rc_levels s) v) - Z.of_nat (n_le (ritems_of ops) v))
                      <= Z.of_nat (lv_compactions (rc_levels s)))%Z) (rc_run lg n k ops).
  Proof.
    intros Hp Hm. apply always_mono with
      (P := fun s => (small (spec_size n k) (rc_levels s) /\ rc_count s = Z.of_nat (length (ritems_of ops))) /\
                     (Z.abs (Z.of_nat (lv_rank (rc_levels s) v) - Z.of_nat (n_le (ritems_of ops) v))
                      <= Z.of_nat (lv_compactions (rc_levels s)))%Z); [|tauto].
    apply always_whenever_and; [apply rc_run_always; auto using default_mode_method|].
    rewrite rc_run_val by apply Hp. apply rc_rank_error; auto. apply Hp.
  Qed.

  Lemma default_non_fast ops : default_mode ops -> non_fast ops.
  Proof. apply Forall_impl. tauto. Qed.

  (** even k: at most [h] compacted levels hold when N < buffer_size * 2^h *)
  Lemma halves_height n k (lv : list level) N h : 1 <= k -> halves k (spec_size n k) lv N -> N < spec_size n k * 2 ^ h ->
    length lv - 1 <= h.
  Proof.
    intros Hk HH HN. destruct lv as [|l0 [|l1 up]]; [cbn; lia|cbn; lia|]. destruct (spec_size_ge n Hk) as [Hb2 _].
    assert (spec_size n k * 2 ^ length up <= N) as Hb by (eapply halves_levels with (k := k); eauto).
    assert (2 ^ length up < 2 ^ h) as Hlt by (apply (Nat.mul_lt_mono_pos_l (spec_size n k)); lia).
    apply Nat.pow_lt_mono_r_iff in Hlt; [|lia]. cbn [length]. lia.
  Qed.

  Lemma rank_error_even lg n k ops v h bs : proper lg n k ops -> default_mode ops -> few_levels n k ops -> Nat.even k = true ->
    calc_buffer_size lg n k = Ret bs -> length (ritems_of ops) < bs * 2 ^ h ->
    always (fun z => (Z.of_nat k * Z.abs (z - Z.of_nat (n_le (ritems_of ops) v)) <= Z.of_nat (h * length (ritems_of ops)))%Z)
           (rank_after lg n k ops v).
  Proof.
    intros Hp Hm Hf He Hc HN. apply rank_after_always; auto using default_mode_method.
    destruct Hp as (Hp & Hr & Hn).
    assert (bs = spec_size n k) as ->.
    { destruct Hp as (Hk & H1 & H2 & H3 & H4). rewrite calc_buffer_size_val in Hc by assumption. congruence. }
    destruct Hp as (Hk & _).
    eapply whenever_mono; [apply whenever_and; [apply rc_rank_error with (v := v); auto|apply rc_halves; auto]|].
    cbn beta. intros s [H1 H2]. pose proof (halves_height _ _ h Hk H2 HN) as Hh.
    destruct (spec_size_ge n Hk) as [Hb2 _].
    assert (k * lv_compactions (rc_levels s) <= (length (rc_levels s) - 1) * length (ritems_of ops)) as H3
      by (eapply halves_compactions; eauto).
    assert ((length (rc_levels s) - 1) * length (ritems_of ops) <= h * length (ritems_of ops)) as H4 by (now apply Nat.mul_le_mono_r).
    apply Z.le_trans with (Z.of_nat k * Z.of_nat (lv_compactions (rc_levels s)))%Z.
    - apply Z.mul_le_mono_nonneg_l; lia.
    - lia.
  Qed.

  (** any k: [h] such that 5^h (N-1) < 7^h (buffer_size-1) *)
  Lemma rank_error_any lg n k ops v h bs : proper lg n k ops -> default_mode ops -> few_levels n k ops ->
    calc_buffer_size lg n k = Ret bs -> 5 ^ h * (length (ritems_of ops) - 1) < (bs - 1) * 7 ^ h ->
    always (fun z => (Z.of_nat k * Z.abs (z - Z.of_nat (n_le (ritems_of ops) v)) <= Z.of_nat ((2 ^ (h + 1) - 1) * length (ritems_of ops)))%Z)
           (rank_after lg n k ops v).
  Proof.
    intros Hp Hm Hf Hc HN. apply rank_after_always; auto using default_mode_method.
    destruct Hp as (Hp & Hr & Hn).
    assert (bs = spec_size n k) as ->.
    { destruct Hp as (Hk & H1 & H2 & H3 & H4). rewrite calc_buffer_size_val in Hc by assumption. congruence. }
    destruct Hp as (Hk & _).
    destruct (spec_size_ge n Hk) as [Hb2 _].
    eapply whenever_mono; [apply whenever_and; [apply rc_rank_error with (v := v); auto|
      apply whenever_and; [apply rc_tight; auto; now apply default_non_fast|
        apply always_whenever; apply rc_fits; auto using default_mode_method; exact (fun _ => True)]]|].
    cbn beta. intros s [H1 [H2 H3]].
    assert (length (rc_levels s) <= h + 1) as Hh.
    { destruct (rc_levels s) as [|l0 [|l1 up]]; [cbn; lia|cbn; lia|].
      assert ((spec_size n k - 1) * 7 ^ length up <= 5 ^ length up * (length (ritems_of ops) - 1)) as Hb
        by (eapply tight_levels; eauto).
      destruct (Nat.le_gt_cases h (length up)) as [Hle|Hgt]; [exfalso|cbn [length]; lia].
      replace (length up) with (h + (length up - h)) in Hb by lia. rewrite !Nat.pow_add_r in Hb.
      assert (5 ^ (length up - h) <= 7 ^ (length up - h)) as Hp57 by (apply Nat.pow_le_mono_l; lia).
      assert (1 <= 5 ^ (length up - h)) as Hp5 by (pose proof (Nat.pow_nonzero 5 (length up - h)); lia).
      generalize dependent (5 ^ (length up - h)). generalize dependent (7 ^ (length up - h)). intros p7 p5 Hb B A.
      assert (5 ^ h * p7 * (length (ritems_of ops) - 1) < (spec_size n k - 1) * (7 ^ h * p7)) by nia.
      assert (5 ^ h * p5 * (length (ritems_of ops) - 1) <= 5 ^ h * p7 * (length (ritems_of ops) - 1)).
      { apply Nat.mul_le_mono_r, Nat.mul_le_mono_l. exact B. }
      lia. }
    pose proof (fits_compactions _ _ _ H3) as H4.
    assert (2 ^ length (rc_levels s) <= 2 ^ (h + 1)) as H5 by (apply Nat.pow_le_mono_r; lia).
    assert ((2 ^ length (rc_levels s) - 1) * length (ritems_of ops) <= (2 ^ (h + 1) - 1) * length (ritems_of ops)) as H6
      by (apply Nat.mul_le_mono_r; lia).
    apply Z.le_trans with (Z.of_nat k * Z.of_nat (lv_compactions (rc_levels s)))%Z.
    - apply Z.mul_le_mono_nonneg_l; lia.
    - lia.
  Qed.

  (** ** variance *)
  Lemma rank_variance_counters lg n k ops v : proper lg n k ops -> default_mode ops -> few_levels n k ops ->
    (expect (fun z => (IZR z - INR (n_le (ritems_of ops) v)) ^ 2) (rank_after lg n k ops v)
     <= expect (fun s => INR (lv_compactions2 (rc_levels s))) (rc_run lg n k ops))%R.
  Proof.
    intros Hp Hm Hf. rewrite rank_after_expect by (auto using default_mode_method). destruct Hp as (Hp & Hr & Hn).
    rewrite rc_run_val by exact Hp.
    eapply Rle_trans; [|apply rc_square; auto; apply Hp].
    apply Req_le. f_equal. apply FunctionalExtensionality.functional_extensionality. intros s. now rewrite <- INR_IZR_INZ.
  Qed.

  Lemma rank_variance_even lg n k ops v h bs : proper lg n k ops -> default_mode ops -> few_levels n k ops -> Nat.even k = true ->
    calc_buffer_size lg n k = Ret bs -> length (ritems_of ops) < bs * 2 ^ h ->
    (INR k * expect (fun z => (IZR z - INR (n_le (ritems_of ops) v)) ^ 2) (rank_after lg n k ops v)
     <= INR ((2 ^ h - 1) * length (ritems_of ops)))%R.
  Proof.
    intros Hp Hm Hf He Hc HN.
    assert (bs = spec_size n k) as ->.
    { destruct Hp as ((Hk & H1 & H2 & H3 & H4) & _). rewrite calc_buffer_size_val in Hc by assumption. congruence. }
    eapply Rle_trans; [apply Rmult_le_compat_l; [apply pos_INR|apply rank_variance_counters; eauto]|].
    rewrite <- expect_scal.
    assert (always (fun s => halves k (spec_size n k) (rc_levels s) (length (ritems_of ops))) (rc_run lg n k ops)) as HA.
    { eapply always_mono; [apply always_whenever_and; [apply rc_run_always; eauto using default_mode_method|]|].
      - rewrite rc_run_val by apply Hp. apply rc_halves; auto. apply Hp.
      - cbn beta. tauto. }
    rewrite <- (@expect_const _ (INR ((2 ^ h - 1) * length (ritems_of ops))) (rc_run lg n k ops)).
    2:{ eapply always_mono; [exact HA|auto]. }
    eapply expect_le_always; [exact HA|]. cbn beta. intros s HH. rewrite <- mult_INR. apply le_INR.
    destruct Hp as ((Hk & _) & _). pose proof (halves_height _ _ h Hk HH HN) as Hh.
    destruct (spec_size_ge n Hk) as [Hb2 _].
    assert (k * lv_compactions2 (rc_levels s) <= (2 ^ (length (rc_levels s) - 1) - 1) * length (ritems_of ops)) as H3
      by (eapply halves_compactions2; eauto).
    assert (2 ^ (length (rc_levels s) - 1) <= 2 ^ h) as H5 by (apply Nat.pow_le_mono_r; lia).
    eapply Nat.le_trans; [exact H3|]. apply Nat.mul_le_mono_r. lia.
  Qed.

  (** k * buffer_size * MSE <= 2 N^2 *)
  Lemma rank_variance_total lg n k ops v bs : proper lg n k ops -> default_mode ops -> few_levels n k ops -> Nat.even k = true ->
    calc_buffer_size lg n k = Ret bs ->
    (INR k * INR bs * expect (fun z => (IZR z - INR (n_le (ritems_of ops) v)) ^ 2) (rank_after lg n k ops v)
     <= 2 * INR (length (ritems_of ops)) ^ 2)%R.
  Proof.
    intros Hp Hm Hf He Hc. set (N := length (ritems_of ops)).
    assert (1 <= bs) as Hbs.
    { destruct Hp as ((Hk & H1 & H2 & H3 & H4) & _). rewrite calc_buffer_size_val in Hc by assumption.
      destruct (spec_size_ge n Hk). injection Hc. lia. }
    assert (exists h, N < bs * 2 ^ h /\ bs * (2 ^ h - 1) <= 2 * N) as (h & H1 & H2).
    { assert (forall g, N < bs * 2 ^ g -> exists h, N < bs * 2 ^ h /\ bs * (2 ^ h - 1) <= 2 * N) as H.
      { induction g as [|g IH]; intros Hg.
        - exists 0. split; auto. cbn [Nat.pow]. lia.
        - destruct (Nat.lt_ge_cases N (bs * 2 ^ g)) as [Hlt|Hge]; [auto|].
          exists (S g). split; auto. rewrite Nat.pow_succ_r', Nat.mul_sub_distr_l. lia. }
      apply (H N). assert (N < 2 ^ N) by (apply Nat.pow_gt_lin_r; lia). nia. }
    pose proof (@rank_variance_even lg n k ops v h bs Hp Hm Hf He Hc H1) as H3.
    apply le_INR in H2. rewrite !mult_INR in H2. rewrite mult_INR in H3. fold N in H3.
    set (E := expect _ _) in *.
    pose proof (pos_INR bs). pose proof (pos_INR N). pose proof (pos_INR (2 ^ h - 1)).
    change (INR 2) with 2%R in H2.
    apply Rle_trans with (INR bs * (INR (2 ^ h - 1) * INR N))%R.
    - replace (INR k * INR bs * E)%R with (INR bs * (INR k * E))%R by ring. now apply Rmult_le_compat_l.
    - replace (INR bs * (INR (2 ^ h - 1) * INR N))%R with (INR bs * INR (2 ^ h - 1) * INR N)%R by ring.
      replace (2 * INR N ^ 2)%R with (2 * INR N * INR N)%R by ring. now apply Rmult_le_compat_r.
  Qed.

  (** Chebyshev *)
  Lemma chebyshev {A} (P : A -> Prop) (m : M A) (g : A -> R) (t : R) (p : A -> bool) : (0 <= t)%R -> always P m ->
    (forall a, P a -> p a = true -> (t <= Rabs (g a))%R) -> (t ^ 2 * prob p m <= expect (fun a => g a ^ 2) m)%R.
  Proof.
    intros Ht Ha Hp. unfold prob. rewrite <- expect_scal. eapply expect_le_always; [exact Ha|]. cbn beta.
    intros a HPa. destruct (p a) eqn:E.
    - specialize (Hp a HPa E). rewrite Rmult_1_r. rewrite <- (pow2_abs (g a)). apply pow_incr. lra.
    - rewrite Rmult_0_r. apply pow2_ge_0.
  Qed.

  (** probability that the rank is off by at least [t] *)
  Lemma rank_tail lg n k ops v bs t : proper lg n k ops -> default_mode ops -> few_levels n k ops -> Nat.even k = true ->
    calc_buffer_size lg n k = Ret bs ->
    (INR t ^ 2 * (INR k * INR bs) * prob (fun z => Z.of_nat t <=? Z.abs (z - Z.of_nat (n_le (ritems_of ops) v)))%Z (rank_after lg n k ops v)
     <= 2 * INR (length (ritems_of ops)) ^ 2)%R.
  Proof.
    intros Hp Hm Hf He Hc. eapply Rle_trans; [|eapply rank_variance_total with (v := v); eauto].
    rewrite (Rmult_comm (INR t ^ 2)). rewrite Rmult_assoc. apply Rmult_le_compat_l.
    - apply Rmult_le_pos; apply pos_INR.
    - apply chebyshev with (P := fun _ => True).
      + apply pos_INR.
      + eapply always_mono; [eapply rank_after_always with (P := fun _ => True); auto using default_mode_method|auto].
        eapply always_whenever. eapply always_mono; [apply rc_fresh_ok; try apply Hp; auto using default_mode_method|auto].
      + intros z _ H. apply Z.leb_le in H. rewrite !INR_IZR_INZ, <- minus_IZR, <- abs_IZR. now apply IZR_le.
  Qed.
End RCO.
