(** RCSketch: the quantile queries and the [Digest] interface. *)
From Coq Require Import List Arith ZArith NArith Lia Bool Permutation Sorted Reals Lra.
From Verif Require Import Base Floats Digest Spec FloatFacts History TDigest RCSketch RCProofs RCHist RCRank RCExpect RCTop RCQuery RCObs.
Set Implicit Arguments.
Local Open Scope nat_scope.

Section RCO2.
  Context {F : Type} {FO : FloatOps F} {FL : FloatLaws F}.
  Notation level := (@level F).

  Lemma all_in_items (P : F -> Prop) (lv : list level) : all_in P lv <-> Forall P (lv_items lv).
  Proof.
    unfold all_in, lv_items. induction lv as [|l lv IH]; cbn [map concat]; [split; constructor|].
    rewrite Forall_app, <- IH. split.
    - intros H. split; [now apply Forall_inv in H|now apply Forall_inv_tail in H].
    - intros [H1 H2]. now constructor.
  Qed.
  Lemma lv_weight_items (lv : list level) : 1 <= lv_weight lv -> lv_items lv <> [].
  Proof.
    induction lv as [|[b c] up IH]; cbn [lv_weight]; [lia|]. intros H. unfold lv_items in *. cbn [map concat fst].
    destruct b; [|discriminate]. cbn [length] in H. cbn [app]. apply IH. lia.
  Qed.
  Lemma lv_items_weight (lv : list level) : length (lv_items lv) <= lv_weight lv.
  Proof.
    induction lv as [|[b c] up IH]; cbn [lv_weight]; unfold lv_items in *; cbn [map concat fst length]; [lia|].
    rewrite app_length. lia.
  Qed.

  (** few enough levels for the [i32] weights of [sorted_weighted_values] *)
  Definition few_levels31 n k (ops : list (rop F)) : Prop :=
    (length (ritems_of ops) <= n /\ (N.of_nat (n / k) <= u32_max)%N) \/ (Z.of_nat (length (ritems_of ops)) < 2 ^ 31)%Z.

  Lemma halves_short31 n k (lv : list level) j : 1 <= k -> (Z.of_nat j < 2 ^ 31)%Z -> halves k (spec_size n k) lv j -> length lv <= 31.
  Proof.
    intros Hk Hj HH. destruct lv as [|l0 [|l1 up]]; [cbn; lia|cbn; lia|]. destruct (spec_size_ge n Hk) as [Hb2 _].
    assert (spec_size n k * 2 ^ length up <= j) as Hb by (eapply halves_levels with (k := k); eauto).
    destruct (Nat.le_gt_cases (length up) 29) as [Hle|Hgt]; [cbn [length]; lia|exfalso].
    assert (2 * 2 ^ length up <= j) as H2 by (eapply Nat.le_trans; [|exact Hb]; now apply Nat.mul_le_mono_r).
    apply Nat2Z.inj_le in H2. rewrite Nat2Z.inj_mul, Nat2Z.inj_pow in H2. change (Z.of_nat 2) with 2%Z in H2.
    assert (2 ^ 30 <= 2 ^ Z.of_nat (length up))%Z by (apply Z.pow_le_mono_r; lia).
    change (2 ^ 30)%Z with 1073741824%Z in *. change (2 ^ 31)%Z with 2147483648%Z in *. lia.
  Qed.

  (** the state reached with an even k *)
  Definition even_state (items : list F) (s : rc F) : Prop :=
    length (rc_levels s) <= 31 /\ lv_weight (rc_levels s) = length items /\ rc_count s = Z.of_nat (length items) /\
    no_nan (lv_items (rc_levels s)) /\ (forall x, In x (lv_items (rc_levels s)) -> In x items).

  Lemma even_always lg n k ops : proper lg n k ops -> default_method ops -> Nat.even k = true -> few_levels31 n k ops ->
    always (even_state (ritems_of ops)) (rc_run lg n k ops).
  Proof.
    intros (Hp & Hr & Hn) Hm He Hf. rewrite rc_run_val by exact Hp. destruct Hp as (Hk & _).
    eapply always_mono; [apply always_whenever_and; [|apply rc_halves; eauto]|].
    - apply rc_fresh_always with (P := fun x => fisnan x = false /\ In x (ritems_of ops)); auto.
      + eapply Forall_impl; [|exact Hm]. intros o ->. apply keeps_default_P. tauto.
      + apply Forall_forall. intros x Hx. unfold no_nan in Hn. rewrite Forall_forall in Hn. auto.
    - cbn beta. intros s [(H1 & H2 & H3) H4]. unfold even_state. apply all_in_items in H2. rewrite Forall_forall in H2.
      repeat split.
      + destruct Hf as [[Hl Hu]|Hz]; [eapply halves_short; eauto|eapply halves_short31; eauto].
      + eapply halves_weight; eauto.
      + exact H3.
      + apply Forall_forall. intros x Hx. now apply H2.
      + intros x Hx. now apply H2.
  Qed.

  (** *** est_quantile_at_value *)
  Lemma even_state_quantile items s v : even_state items s -> items <> [] -> (Z.of_nat (length items) <= fint)%Z ->
    exists a, rc_est_quantile s v = Ret a /\ fval a = frnd (INR (lv_rank (rc_levels s) v) / INR (length items)).
  Proof.
    intros (H1 & H2 & H3 & _) Hne Hf. apply rc_est_quantile_val; auto; try lia.
    destruct items; [congruence|cbn; lia].
  Qed.

  Lemma ratio_range r n : 1 <= n -> r <= n -> (0 <= INR r / INR n <= 1)%R.
  Proof.
    intros Hn Hr. assert (0 < INR n)%R as Hp by (apply lt_0_INR; lia). pose proof (pos_INR r). apply le_INR in Hr. split.
    - apply Rmult_le_pos; [lra|]. left. now apply Rinv_0_lt_compat.
    - apply (Rmult_le_reg_r (INR n)); [lra|]. unfold Rdiv. rewrite Rmult_assoc, Rinv_l by lra. lra.
  Qed.

  Lemma quantile_at_most_one lg n k ops v : proper lg n k ops -> default_method ops -> Nat.even k = true ->
    few_levels31 n k ops -> ritems_of ops <> [] -> (Z.of_nat (length (ritems_of ops)) <= fint)%Z ->
    always (fun a => exists r, fval a = XFin r /\ (0 <= r <= 1)%R /\
              ((forall x, In x (ritems_of ops) -> fle x v = true) -> r = 1%R) /\
              ((forall x, In x (ritems_of ops) -> fle x v = false) -> r = 0%R)) (quantile_after lg n k ops v).
  Proof.
    intros Hp Hm He Hf Hne Hi. unfold quantile_after. eapply always_bind; [apply even_always; eauto|].
    intros s Hs. destruct (even_state_quantile v Hs Hne Hi) as (a & -> & Ha). cbn [always].
    destruct Hs as (H1 & H2 & H3 & H4 & H5).
    assert (1 <= length (ritems_of ops)) as Hl by (destruct (ritems_of ops); [congruence|cbn; lia]).
    pose proof (lv_rank_le_weight (rc_levels s) v) as Hr. rewrite H2 in Hr.
    destruct (@frnd_range _ _ _ 0 1 _ fexact_0 fexact_1 (ratio_range Hl Hr)) as (r & Er & Hr01).
    rewrite Er in Ha. exists r. repeat split; try tauto; auto; try lra.
    - intros Hall. rewrite lv_rank_all, H2 in Er.
      + unfold Rdiv in Er. rewrite Rinv_r in Er by (apply not_0_INR; lia). rewrite frnd_exact in Er by apply fexact_1. congruence.
      + apply all_in_items, Forall_forall. auto.
    - intros Hall. rewrite lv_rank_none in Er.
      + unfold Rdiv in Er. cbn [INR] in Er. rewrite Rmult_0_l in Er. rewrite frnd_exact in Er by apply fexact_0. congruence.
      + apply all_in_items, Forall_forall. auto.
  Qed.

  Lemma quantile_mono items s v1 v2 : even_state items s -> items <> [] -> (Z.of_nat (length items) <= fint)%Z ->
    fle v1 v2 = true ->
    exists a1 a2, rc_est_quantile s v1 = Ret a1 /\ rc_est_quantile s v2 = Ret a2 /\ fle a1 a2 = true.
  Proof.
    intros Hs Hne Hi Hv. destruct (even_state_quantile v1 Hs Hne Hi) as (a1 & E1 & H1).
    destruct (even_state_quantile v2 Hs Hne Hi) as (a2 & E2 & H2). exists a1, a2. repeat split; auto.
    apply fle_iff. rewrite H1, H2. apply frnd_mono.
    assert (0 < INR (length items))%R as Hp by (apply lt_0_INR; destruct items; [congruence|cbn; lia]).
    unfold Rdiv. apply Rmult_le_compat_r; [left; now apply Rinv_0_lt_compat|]. apply le_INR. now apply lv_rank_mono.
  Qed.

  (** *** est_value_at_quantile *)
  Lemma even_state_value items s q : even_state items s -> items <> [] -> (Z.of_nat (length items) <= fint)%Z ->
    exists x, rc_est_value s q = Ret x /\ In x items /\
      value_spec (rc_levels s) (fval (fmul q (fofZ (Z.of_nat (length items))))) x.
  Proof.
    intros (H1 & H2 & H3 & H4 & H5) Hne Hi.
    assert (1 <= length items) as Hl by (destruct items; [congruence|cbn; lia]).
    destruct (@rc_est_value_val F FO FL s q) as (x & E & Hx); auto; try lia.
    { apply lv_weight_items. lia. }
    rewrite H3 in Hx. exists x. repeat split; auto; apply Hx || (apply H5; apply Hx).
  Qed.

  Lemma value_mono items s q1 q2 r1 r2 : even_state items s -> items <> [] -> (Z.of_nat (length items) <= fint)%Z ->
    fval q1 = XFin r1 -> fval q2 = XFin r2 -> (r1 <= r2)%R ->
    exists x1 x2, rc_est_value s q1 = Ret x1 /\ rc_est_value s q2 = Ret x2 /\ fle x1 x2 = true.
  Proof.
    intros Hs Hne Hi Hq1 Hq2 Hr.
    destruct (even_state_value q1 Hs Hne Hi) as (x1 & E1 & _ & H1).
    destruct (even_state_value q2 Hs Hne Hi) as (x2 & E2 & _ & H2). exists x1, x2. repeat split; auto.
    destruct Hs as (_ & _ & _ & Hn & _).
    eapply value_spec_mono; [exact Hn| |exact H1|exact H2].
    change (fofZ (Z.of_nat (length items))) with (fof_nat (F := F) (length items)).
    rewrite (fmul_fin Hq1 (fval_nat _ Hi)), (fmul_fin Hq2 (fval_nat _ Hi)). apply frnd_mono.
    apply Rmult_le_compat_r; auto. apply pos_INR.
  Qed.

  (** [est_value_at_quantile] does not panic on a non-empty sketch of at most 31 levels, whatever k *)
  Lemma rc_est_value_ok (s : rc F) q : length (rc_levels s) <= 31 ->
    no_nan (lv_items (rc_levels s)) -> lv_items (rc_levels s) <> [] ->
    always (fun x => In x (lv_items (rc_levels s))) (rc_est_value s q).
  Proof.
    intros Hl Hn Hne. unfold rc_est_value, sorted_weighted_values. set (lv := rc_levels s) in *.
    rewrite weighted_from_val by lia. cbn [bind].
    eapply always_bind with (P := fun cs => Permutation (map cen_of (pairs 0 lv)) cs).
    { apply sort_by_key_ok.
      - unfold keys_nn. rewrite Forall_map. cbn [cen_of mean]. rewrite <- (Forall_map fst (fun x => fisnan x = false)).
        rewrite pairs_items. exact Hn.
      - auto. }
    intros cs Hp. assert (forall c, In c cs -> In (mean c) (lv_items lv)) as Hin.
    { intros c Hc. apply Permutation_sym in Hp. eapply Permutation_in in Hc; [|exact Hp].
      apply in_map_iff in Hc as (p & <- & Hpin). cbn [cen_of mean]. rewrite <- (pairs_items lv 0). now apply in_map. }
    assert (forall cs' tot t x, first_above cs' tot t = Some x -> exists c, In c cs' /\ x = mean c) as Hfa.
    { induction cs' as [|c cs' IH]; intros tot t x; cbn [first_above]; [discriminate|].
      destruct (fgt _ _); [intros [= <-]; exists c; split; auto; now left|]. intros H. apply IH in H as (c' & H & ->). exists c'. split; auto. now right. }
    destruct (first_above cs f0 _) as [x|] eqn:E; cbn [always].
    - apply Hfa in E as (c & Hc & ->). auto.
    - destruct (rev cs) as [|c r] eqn:Er.
      + apply Hne. rewrite <- (pairs_items lv 0). assert (cs = []) as -> by (rewrite <- (rev_involutive cs), Er; reflexivity).
        apply Permutation_sym, Permutation_nil in Hp. destruct (pairs 0 lv); [reflexivity|discriminate].
      + cbn [always]. apply Hin. apply in_rev. rewrite Er. now left.
  Qed.

  (** ** as a [Digest] *)
  (** calls allowed by the theorem below: at most [n] items in all, no NaN; a value query needs an item, and a
      sketch that cannot grow past 31 levels (always so when k is even) *)
  Definition rc_allowed n k (its : list F) (o : op F) : Prop :=
    match o with
    | Add x => fisnan x = false /\ length its + 1 <= n
    | AddBuf l => no_nan l /\ length its + length l <= n
    | Quant _ => True
    | Val _ => its <> [] /\ (Nat.even k = true \/ (5 ^ 30 * (Z.of_nat n - 1) < (Z.of_nat (spec_size n k) - 1) * 7 ^ 30)%Z)
    end.

  Definition rop_of (o : op F) : list (rop F) :=
    match o with Add x => [RAdd x] | AddBuf l => [RBuf l] | _ => [] end.

  Lemma tight_short31 n k (lv : list level) j : 1 <= k -> j <= n ->
    (5 ^ 30 * (Z.of_nat n - 1) < (Z.of_nat (spec_size n k) - 1) * 7 ^ 30)%Z ->
    tight (spec_size n k) lv j -> length lv <= 31.
  Proof.
    intros Hk Hj Hz HH. destruct lv as [|l0 [|l1 up]]; [cbn; lia|cbn; lia|].
    destruct (spec_size_ge n Hk) as [Hb2 Hbk].
    assert ((spec_size n k - 1) * 7 ^ length up <= 5 ^ length up * (j - 1)) as Hb by (eapply tight_levels; eauto).
    destruct (Nat.le_gt_cases (length up) 29) as [Hle|Hgt]; [cbn [length]; lia|exfalso].
    assert (length up = 30 + (length up - 30)) as Eh by lia. set (h := length up - 30) in *. rewrite Eh in Hb.
    apply Nat2Z.inj_le in Hb. rewrite !Nat2Z.inj_mul, !Nat2Z.inj_pow, !Nat2Z.inj_add in Hb.
    change (Z.of_nat 7) with 7%Z in Hb. change (Z.of_nat 5) with 5%Z in Hb. change (Z.of_nat 30) with 30%Z in Hb.
    rewrite !Z.pow_add_r in Hb by lia. rewrite !Nat2Z.inj_sub_max in Hb.
    assert (5 ^ Z.of_nat h <= 7 ^ Z.of_nat h)%Z as Hp by (apply Z.pow_le_mono_l; lia).
    assert (0 < 5 ^ Z.of_nat h)%Z as Hp0 by (apply Z.pow_pos_nonneg; lia).
    generalize dependent (5 ^ Z.of_nat h)%Z. generalize dependent (7 ^ Z.of_nat h)%Z. intros p7 p5 Hb A B.
    change (5 ^ 30)%Z with 931322574615478515625%Z in *. change (7 ^ 30)%Z with 22539340290692258087863249%Z in *.
    assert (Z.max 0 (Z.of_nat j - Z.of_nat 1) <= Z.of_nat n - 1 \/ Z.of_nat n = 0)%Z as [Hn|Hn] by lia; [|nia].
    assert (Z.max 0 (Z.of_nat (spec_size n k) - Z.of_nat 1) = Z.of_nat (spec_size n k) - 1)%Z as Es by lia. rewrite Es in Hb.
    assert (931322574615478515625 * p5 * Z.max 0 (Z.of_nat j - Z.of_nat 1) <= 931322574615478515625 * p7 * (Z.of_nat n - 1))%Z
      by (apply Z.mul_le_mono_nonneg; lia).
    assert (931322574615478515625 * (Z.of_nat n - 1) * p7 < (Z.of_nat (spec_size n k) - 1) * 22539340290692258087863249 * p7)%Z
      by (apply Z.mul_lt_mono_pos_r; lia).
    lia.
  Qed.

  (** a state that some insertions (default compaction) lead to *)
  Definition reached n k (s : rc F) (its : list F) : Prop :=
    exists ops, default_mode ops /\ ritems_of ops = its /\ returns (rexec (rc_fresh n k) ops) s.

  Lemma always_returns_self {A} (m : M A) : always (fun _ => True) m -> always (returns m) m.
  Proof.
    induction m as [a| | |f IH]; cbn [always returns]; auto. intros H b.
    eapply always_mono; [apply IH, H|]. intros a Ha. exists b. exact Ha.
  Qed.

  Lemma rexec_app (s : rc F) o1 o2 : rexec s (o1 ++ o2) = bind (rexec s o1) (fun s' => rexec s' o2).
  Proof.
    unfold rexec. revert s. induction o1 as [|o o1 IH]; intros s; cbn [app foldM bind]; [reflexivity|].
    rewrite bind_assoc. apply bind_ext. intros s'. apply IH.
  Qed.
  Lemma rexec_one (s : rc F) o : rexec s [o] = rstep s o.
  Proof. unfold rexec. cbn [foldM]. apply bind_ret. Qed.

  Lemma ritems_of_snoc (ops : list (rop F)) o : ritems_of (ops ++ [o]) = ritems_of ops ++ ritems o.
  Proof. unfold ritems_of. rewrite map_app, concat_app. cbn [map concat]. now rewrite app_nil_r. Qed.

  Lemma reached_step n k s its o : 1 <= k -> (N.of_nat (n / k) <= u32_max)%N -> reached n k s its -> no_nan its ->
    rfast o = false -> rmeth o = Default -> no_nan (ritems o) -> length its + length (ritems o) <= n ->
    always (fun s' => reached n k s' (its ++ ritems o)) (rstep s o).
  Proof.
    intros Hk Hu (ops & Hm & <- & Hs) Hn1 Hfa Hme Hn2 Hl.
    assert (default_mode (ops ++ [o])) as Hm2 by (apply Forall_app; split; auto; repeat constructor; auto).
    assert (always (fun _ => True) (rstep s o)) as HT.
    { pose proof (@rc_fresh_ok F FO FL n k (ops ++ [o]) Hk) as H.
      assert (rexec (rc_fresh n k) (ops ++ [o]) = bind (rexec (rc_fresh n k) ops) (fun s => rstep s o)) as E.
      { rewrite rexec_app. apply bind_ext. intros s'. apply rexec_one. }
      rewrite E, always_bind_iff in H. rewrite ritems_of_snoc in H.
      assert (always (fun s => always (fun _ => True) (rstep s o)) (rexec (rc_fresh n k) ops)) as HA.
      { eapply always_mono; [apply H|].
        - right. rewrite ritems_of_snoc, app_length. auto.
        - now apply default_mode_method.
        - apply Forall_app. auto.
        - cbn beta. intros s' Hs'. eapply always_mono; [exact Hs'|auto]. }
      exact (@always_returns _ _ _ _ HA Hs). }
    eapply always_mono; [apply always_returns_self, HT|]. intros s' Hs'. exists (ops ++ [o]). repeat split; auto.
    - now rewrite ritems_of_snoc.
    - rewrite rexec_app. eapply returns_bind; [exact Hs|]. rewrite rexec_one. exact Hs'.
  Qed.

  Lemma reached_facts n k s its : 1 <= k -> (N.of_nat (n / k) <= u32_max)%N -> reached n k s its -> no_nan its -> length its <= n ->
    rc_count s = Z.of_nat (length its) /\ length (rc_levels s) <= 64 /\
    no_nan (lv_items (rc_levels s)) /\ (forall x, In x (lv_items (rc_levels s)) -> In x its) /\
    (its <> [] -> lv_items (rc_levels s) <> []) /\
    (Nat.even k = true \/ (5 ^ 30 * (Z.of_nat n - 1) < (Z.of_nat (spec_size n k) - 1) * 7 ^ 30)%Z -> length (rc_levels s) <= 31).
  Proof.
    intros Hk Hu (ops & Hm & <- & Hs) Hn Hl. destruct (spec_size_ge n Hk) as [Hb2 Hbk].
    assert (in_range n k ops) as Hr by (right; auto).
    assert (small (spec_size n k) (rc_levels s) /\ all_in (fun x => fisnan x = false /\ In x (ritems_of ops)) (rc_levels s) /\
            rc_count s = Z.of_nat (length (ritems_of ops))) as (A1 & A2 & A3).
    { pattern s; eapply always_returns; [|exact Hs]. apply rc_fresh_always; auto.
      - apply default_mode_method in Hm. eapply Forall_impl; [|exact Hm]. intros o ->. apply keeps_default_P. tauto.
      - apply Forall_forall. intros x Hx. unfold no_nan in Hn. rewrite Forall_forall in Hn. auto. }
    apply all_in_items in A2. rewrite Forall_forall in A2.
    assert (tight (spec_size n k) (rc_levels s) (length (ritems_of ops))) as A4.
    { pattern s; eapply whenever_returns; [|exact Hs]. apply rc_tight; auto. now apply default_non_fast. }
    assert (guard k (spec_size n k / 2) (rc_levels s) (ritems_of ops)) as A5.
    { pattern s; eapply whenever_returns; [|exact Hs]. apply rc_guard; auto. now apply default_mode_method. }
    assert (Nat.even k = true -> halves k (spec_size n k) (rc_levels s) (length (ritems_of ops))) as A6.
    { intros He. pattern s; eapply whenever_returns; [|exact Hs]. apply rc_halves; auto. }
    repeat split; auto.
    - eapply tight_short; eauto.
    - apply Forall_forall. intros x Hx. now apply A2.
    - intros x Hx. now apply A2.
    - intros Hne. destruct (rc_levels s) as [|[b c] up]; [cbn in A5; congruence|].
      destruct A5 as (gone & Hp & _ & Hg & _). unfold lv_items. cbn [map concat fst].
      destruct b as [|x b]; [|discriminate]. exfalso. cbn [app] in Hp.
      destruct gone as [|x gone]; [apply Permutation_sym, Permutation_nil in Hp; congruence|].
      specialize (Hg x (or_introl eq_refl)). unfold n_le in Hg. cbn [filter length] in Hg.
      assert (1 <= spec_size n k / 2) by (apply Nat.div_le_lower_bound; lia).
      apply (Nat.nle_succ_0 0). eapply Nat.le_trans; eauto.
    - intros [He|Hz]; [eapply halves_short; eauto|eapply tight_short31; [exact Hk|exact Hl|exact Hz|exact A4]].
  Qed.

  Lemma rc_digest_always lg n k ops : rc_params lg n k -> (N.of_nat (n / k) <= u32_max)%N ->
    ok_hist (rc_allowed n k) [] ops ->
    always (fun r => rc_count (fst r) = Z.of_nat (length (items_of ops))) (do s <- rc_new lg n k; exec rc_digest s ops).
  Proof.
    intros Hp Hu Ho. rewrite rc_new_val by exact Hp. cbn [bind]. destruct Hp as (Hk & _).
    eapply always_mono.
    - apply (@exec_always F rc_digest (rc_allowed n k)
        (fun (s : rc F) its => reached n k s its /\ no_nan its /\ length its <= n)) with (its := []); auto.
      + intros s its o (HR & Hn & Hl) Hok.
        assert (forall its', items_of [o] = its' -> its' = [] -> its ++ items_of [o] = its) as Hnil
          by (intros its' E1 E2; rewrite E1, E2; apply app_nil_r).
        destruct o as [x|l|v|q]; cbn [step rc_digest d_add d_add_buffer d_est_q d_est_v] in *.
        * destruct Hok as [Hx Hlen]. cbn [items_of flat_map app] in *.
          eapply always_bind; [apply (@reached_step n k s its (RAdd x)); auto; repeat constructor; auto|].
          intros s' Hs'. cbn [always fst]. cbn [ritems] in Hs'. repeat split; auto.
          -- apply Forall_app. split; auto.
          -- rewrite app_length. cbn [length]. lia.
        * destruct Hok as [Hx Hlen]. cbn [items_of flat_map] in *. rewrite app_nil_r.
          eapply always_bind; [apply (@reached_step n k s its (RBuf l)); auto|].
          intros s' Hs'. cbn [always fst]. cbn [ritems] in Hs'. repeat split; auto.
          -- apply Forall_app. split; auto.
          -- rewrite app_length. lia.
        * destruct (reached_facts Hk Hu HR Hn Hl) as (B1 & B2 & B3 & B4 & B5 & B6).
          unfold rc_est_quantile. rewrite interpolate_rank_val by exact B2. cbn [bind always fst].
          rewrite (Hnil [] eq_refl eq_refl). auto.
        * destruct (reached_facts Hk Hu HR Hn Hl) as (B1 & B2 & B3 & B4 & B5 & B6). destruct Hok as [Hne Hev].
          eapply always_bind with (P := fun r => fst r = s).
          { eapply always_bind; [apply rc_est_value_ok; auto|]. intros x _. reflexivity. }
          intros [s' a] E. cbn [fst] in E. subst s'. cbn [always fst]. rewrite (Hnil [] eq_refl eq_refl). auto.
      + split; [|split; [constructor|cbn; lia]]. exists []. repeat split; auto. constructor.
    - cbn beta. intros [s a]. cbn [fst app]. intros (HR & Hn & Hl). apply (reached_facts Hk Hu HR Hn Hl).
  Qed.

  (** ** space *)
  Lemma buffers_small lg n k ops bs : proper lg n k ops -> default_method ops -> calc_buffer_size lg n k = Ret bs ->
    always (fun s => Forall (fun l => length (fst l) < bs) (rc_levels s)) (rc_run lg n k ops).
  Proof.
    intros Hp Hm Hc. eapply always_mono; [apply rc_run_always; eauto|]. cbn beta. intros s [H _].
    destruct Hp as ((Hk & H1 & H2 & H3 & H4) & _). rewrite calc_buffer_size_val in Hc by assumption.
    injection Hc as <-. exact H.
  Qed.

  Lemma levels_even lg n k ops bs h : rc_params lg n k -> Nat.even k = true -> calc_buffer_size lg n k = Ret bs ->
    length (ritems_of ops) < bs * 2 ^ h -> whenever (fun s => length (rc_levels s) <= h + 1) (rc_run lg n k ops).
  Proof.
    intros Hp He Hc HN. rewrite rc_run_val by exact Hp. destruct Hp as (Hk & H1 & H2 & H3 & H4).
    rewrite calc_buffer_size_val in Hc by assumption. injection Hc as <-.
    eapply whenever_mono; [apply rc_halves; auto|]. cbn beta. intros s HH.
    pose proof (halves_height _ _ h Hk HH HN). lia.
  Qed.

  Lemma levels_any lg n k ops bs h : rc_params lg n k -> non_fast ops -> calc_buffer_size lg n k = Ret bs ->
    5 ^ h * (length (ritems_of ops) - 1) < (bs - 1) * 7 ^ h -> whenever (fun s => length (rc_levels s) <= h + 1) (rc_run lg n k ops).
  Proof.
    intros Hp He Hc HN. rewrite rc_run_val by exact Hp. destruct Hp as (Hk & H1 & H2 & H3 & H4).
    rewrite calc_buffer_size_val in Hc by assumption. injection Hc as <-.
    eapply whenever_mono; [apply rc_tight; auto|]. cbn beta. intros s HH.
    destruct (spec_size_ge n Hk) as [Hb2 Hbk].
    destruct (rc_levels s) as [|l0 [|l1 up]]; [cbn; lia|cbn; lia|].
    assert ((spec_size n k - 1) * 7 ^ length up <= 5 ^ length up * (length (ritems_of ops) - 1)) as Hb
      by (eapply tight_levels; eauto).
    destruct (Nat.le_gt_cases h (length up)) as [Hle|Hgt]; [exfalso|cbn [length]; lia].
    replace (length up) with (h + (length up - h)) in Hb by lia. rewrite !Nat.pow_add_r in Hb.
    assert (5 ^ (length up - h) <= 7 ^ (length up - h)) as Hp57 by (apply Nat.pow_le_mono_l; lia).
    assert (1 <= 5 ^ (length up - h)) as Hp5 by (pose proof (Nat.pow_nonzero 5 (length up - h)); lia).
    generalize dependent (5 ^ (length up - h)). generalize dependent (7 ^ (length up - h)). intros p7 p5 Hb B A.
    assert (5 ^ h * p7 * (length (ritems_of ops) - 1) < (spec_size n k - 1) * (7 ^ h * p7)) by nia.
    assert (5 ^ h * p5 * (length (ritems_of ops) - 1) <= 5 ^ h * p7 * (length (ritems_of ops) - 1)).
    { apply Nat.mul_le_mono_r, Nat.mul_le_mono_l. exact B. }
    lia.
  Qed.

  (** ** fast compaction and averaging *)
  Lemma held_within lg n k ops a b : rc_params lg n k -> in_range n k ops -> Forall (within a b) (ritems_of ops) ->
    fexact a -> fexact b -> fexact (2 * a) -> fexact (2 * b) ->
    always (fun s => rc_count s = Z.of_nat (length (ritems_of ops)) /\ Forall (within a b) (lv_items (rc_levels s))) (rc_run lg n k ops).
  Proof.
    intros Hp Hr Hw Ha Hb Ha2 Hb2. rewrite rc_run_val by exact Hp. destruct Hp as (Hk & _).
    eapply always_mono; [apply rc_fresh_always with (P := within a b); auto|].
    - apply Forall_forall. intros o _. now apply keeps_within.
    - cbn beta. intros s (_ & H & Hc). split; auto. now apply all_in_items.
  Qed.

  Lemma value_within lg n k ops a b q : rc_params lg n k -> in_range n k ops -> Forall (within a b) (ritems_of ops) ->
    fexact a -> fexact b -> fexact (2 * a) -> fexact (2 * b) -> Nat.even k = true -> few_levels31 n k ops -> ritems_of ops <> [] ->
    always (within a b) (value_after lg n k ops q).
  Proof.
    intros Hp Hr Hw Ha Hb Ha2 Hb2 He Hf Hne. unfold value_after.
    eapply always_bind; [apply always_whenever_and; [apply held_within; eauto|rewrite rc_run_val by exact Hp; apply rc_halves; [apply Hp|exact He]]|].
    cbn beta. intros s [[_ H1] H2]. destruct Hp as (Hk & _).
    assert (length (rc_levels s) <= 31) as Hl.
    { destruct Hf as [[Hl Hu]|Hz]; [eapply halves_short; eauto|eapply halves_short31; eauto]. }
    pose proof H1 as H1'. rewrite Forall_forall in H1'.
    eapply always_mono; [apply rc_est_value_ok|cbn beta; auto]; auto.
    - eapply Forall_impl; [|exact H1]. intros x (r & E & _). apply fisnan_false. congruence.
    - apply lv_weight_items. destruct (spec_size_ge n Hk) as [Hb' _].
      assert (lv_weight (rc_levels s) = length (ritems_of ops)) as -> by (eapply halves_weight; eauto).
      destruct (ritems_of ops); [congruence|cbn; lia].
  Qed.

  Lemma average_weight lg n k ops : rc_params lg n k -> Forall (fun o => rmeth o = AverageNeighbour) ops ->
    whenever (fun s => lv_weight (rc_levels s) <= length (ritems_of ops)) (rc_run lg n k ops).
  Proof.
    intros Hp Hm. rewrite rc_run_val by exact Hp. destruct Hp as (Hk & _).
    apply rc_fresh_whenever with (mode := fun _ m => m = AverageNeighbour)
      (I := fun lv its => lv_weight lv <= length its); auto.
    - intros fast m lv its chunk lv' -> Hs HI HF. rewrite app_length.
      pose proof (proj1 (averages_weight k (spec_size n k) fast) _ _ _ HF). lia.
  Qed.

  (** even k, any calls: the weights of the held items sum to the count *)
  Lemma even_weight lg n k ops : rc_params lg n k -> Nat.even k = true ->
    whenever (fun s => lv_weight (rc_levels s) = length (ritems_of ops)) (rc_run lg n k ops).
  Proof.
    intros Hp He. rewrite rc_run_val by exact Hp. destruct Hp as (Hk & _).
    eapply whenever_mono; [apply rc_halves; auto|]. cbn beta. intros s HH.
    destruct (spec_size_ge n Hk) as [Hb' _]. eapply halves_weight; eauto.
  Qed.

  (** default compaction past the range of the sections *)
  Lemma beyond lg n k ops bs : rc_params lg n k -> non_fast ops -> calc_buffer_size lg n k = Ret bs ->
    bs + k * 2 ^ (bs / k + 1) <= length (ritems_of ops) -> whenever (fun _ => False) (rc_run lg n k ops).
  Proof.
    intros Hp Hm Hc HN. rewrite rc_run_val by exact Hp. destruct Hp as (Hk & H1 & H2 & H3 & H4).
    rewrite calc_buffer_size_val in Hc by assumption. injection Hc as <-. now apply rc_beyond.
  Qed.

  (** ** a base-2 logarithm that meets the assumption *)
  Definition lg_of (x : F) : F := match ftoZ x with Some z => fof_nat (Nat.log2_up (Z.to_nat z)) | None => x end.
  Lemma lg_of_ok k j : 1 <= j -> (Z.of_nat j <= fint)%Z -> (Z.of_nat j < 2 ^ 64)%Z -> log2_ok lg_of k j.
  Proof.
    intros Hj Hf H64. split; [|lia]. intros _. unfold lg_of.
    rewrite (ftoZ_fin (fval_nat j Hf)).
    - rewrite INR_IZR_INZ, Flocq.Core.Raux.Ztrunc_IZR, Nat2Z.id. rewrite fval_nat; [reflexivity|].
      pose proof (Nat.log2_up_le_lin j ltac:(lia)). lia.
    - rewrite INR_IZR_INZ. split; apply IZR_lt; lia.
  Qed.
  Lemma lg_of_params n k : 1 <= k -> k <= n -> (Z.of_nat (2 * k * Nat.log2_up (n / k)) <= fint)%Z -> (Z.of_nat n <= fint)%Z ->
    (Z.of_nat (2 * k) <= fint)%Z -> (fint < 2 ^ 64)%Z -> rc_params lg_of n k.
  Proof.
    intros Hk Hn H1 H2 H3 H4. assert (n / k <= n) by (apply Nat.div_le_upper_bound; nia).
    assert (1 <= n / k) by (apply Nat.div_le_lower_bound; lia).
    split; [exact Hk|]. split; [apply lg_of_ok; lia|]. repeat split; auto; lia.
  Qed.
End RCO2.
