(** RCSketch: queries. *)
From Coq Require Import List Arith ZArith NArith Lia Bool Permutation Sorted Reals Lra.
From Verif Require Import Base Floats Digest Spec FloatFacts History TDigest RCSketch RCProofs RCHist RCRank RCExpect RCTop.
Set Implicit Arguments.
Local Open Scope nat_scope.

Section RCQ.
  Context {F : Type} {FO : FloatOps F} {FL : FloatLaws F}.
  Notation level := (@level F).

  (** the items held by the levels *)
  Definition lv_items (lv : list level) : list F := concat (map fst lv).

  (** ** the sorted weighted values *)
  Definition cen_of (p : F * Z) : centroid F := Cen (fst p) (fofZ (snd p)).
  Fixpoint pairs (i : Z) (lv : list level) : list (F * Z) :=
    match lv with [] => [] | (b, _) :: up => map (fun x => (x, 2 ^ i)%Z) b ++ pairs (i + 1)%Z up end.
  Definition zsum (ps : list (F * Z)) : Z := fold_right (fun p a => (snd p + a)%Z) 0%Z ps.
  Definition zrank (ps : list (F * Z)) (v : F) : Z := zsum (filter (fun p => fle (fst p) v) ps).

  Lemma zsum_app p1 p2 : zsum (p1 ++ p2) = (zsum p1 + zsum p2)%Z.
  Proof. unfold zsum. induction p1 as [|p p1 IH]; cbn [app fold_right]; [reflexivity|]. rewrite IH. lia. Qed.
  Lemma zsum_perm p1 p2 : Permutation p1 p2 -> zsum p1 = zsum p2.
  Proof. induction 1; unfold zsum in *; cbn [fold_right]; lia. Qed.
  Lemma zrank_app p1 p2 v : zrank (p1 ++ p2) v = (zrank p1 v + zrank p2 v)%Z.
  Proof. unfold zrank. now rewrite filter_app, zsum_app. Qed.
  Lemma zrank_perm p1 p2 v : Permutation p1 p2 -> zrank p1 v = zrank p2 v.
  Proof. intros H. apply zsum_perm. now apply filter_perm. Qed.

  Definition heavy (ps : list (F * Z)) : Prop := Forall (fun p => (1 <= snd p)%Z) ps.
  Lemma zsum_nonneg ps : heavy ps -> (0 <= zsum ps)%Z.
  Proof. induction 1; unfold zsum in *; cbn [fold_right]; lia. Qed.
  Lemma zrank_le ps v : heavy ps -> (0 <= zrank ps v <= zsum ps)%Z.
  Proof.
    induction 1 as [|p ps Hp _ IH]; unfold zrank, zsum in *; cbn [filter fold_right]; [lia|].
    destruct (fle (fst p) v); cbn [fold_right]; lia.
  Qed.
  Lemma zrank_all ps v : Forall (fun p => fle (fst p) v = true) ps -> zrank ps v = zsum ps.
  Proof. intros H. unfold zrank. now rewrite filter_all. Qed.
  Lemma zrank_none ps v : Forall (fun p => fle (fst p) v = false) ps -> zrank ps v = 0%Z.
  Proof. intros H. unfold zrank. now rewrite filter_none. Qed.

  Lemma pairs_zsum lv i : (0 <= i)%Z -> zsum (pairs i lv) = (2 ^ i * Z.of_nat (lv_weight lv))%Z.
  Proof.
    revert i. induction lv as [|[b c] up IH]; intros i Hi; cbn [pairs lv_weight].
    - unfold zsum. cbn [fold_right]. lia.
    - rewrite zsum_app, IH by lia. rewrite Z.pow_add_r by lia. change (2 ^ 1)%Z with 2%Z.
      assert (zsum (map (fun x => (x, 2 ^ i)%Z) b) = (2 ^ i * Z.of_nat (length b))%Z) as ->.
      { induction b as [|x b IHb]; unfold zsum in *; cbn [map fold_right length]; [lia|]. rewrite IHb. cbn [snd]. lia. }
      nia.
  Qed.
  Lemma pairs_zrank lv i v : (0 <= i)%Z -> zrank (pairs i lv) v = (2 ^ i * Z.of_nat (lv_rank lv v))%Z.
  Proof.
    revert i. induction lv as [|[b c] up IH]; intros i Hi; cbn [pairs lv_rank].
    - unfold zrank, zsum. cbn [filter fold_right]. lia.
    - rewrite zrank_app, IH by lia. rewrite Z.pow_add_r by lia. change (2 ^ 1)%Z with 2%Z.
      assert (zrank (map (fun x => (x, 2 ^ i)%Z) b) v = (2 ^ i * Z.of_nat (n_le b v))%Z) as ->.
      { induction b as [|x b IHb]; unfold zrank, zsum, n_le in *; cbn [map filter fst length fold_right]; [lia|].
        destruct (fle x v); cbn [length fold_right]; rewrite IHb; cbn [snd]; lia. }
      nia.
  Qed.
  Lemma pairs_heavy lv i : (0 <= i)%Z -> heavy (pairs i lv).
  Proof.
    revert i. induction lv as [|[b c] up IH]; intros i Hi; cbn [pairs]; [constructor|].
    apply Forall_app. split; [|apply IH; lia]. apply Forall_forall. intros p Hp. apply in_map_iff in Hp as (x & <- & _).
    cbn [snd]. pose proof (Z.pow_pos_nonneg 2 i). lia.
  Qed.
  Lemma pairs_items lv i : map fst (pairs i lv) = lv_items lv.
  Proof.
    revert i. induction lv as [|[b c] up IH]; intros i; cbn [pairs]; [reflexivity|].
    rewrite map_app, map_map, IH. cbn [fst]. rewrite map_id. reflexivity.
  Qed.

  Lemma weighted_from_val lv i : (0 <= i)%Z -> (i + Z.of_nat (length lv) <= 31)%Z ->
    weighted_from i lv = Ret (map cen_of (pairs i lv)).
  Proof.
    revert i. induction lv as [|[b c] up IH]; intros i Hi Hl; cbn [weighted_from pairs]; [reflexivity|].
    cbn [length] in Hl. rewrite IH by lia.
    assert (mapM (fun x => do w <- shl_i32 i; Ret (Cen x (fofZ w))) b
            = Ret (map cen_of (map (fun x => (x, 2 ^ i)%Z) b))) as ->.
    { unfold shl_i32. destruct (Z.ltb_spec i 31) as [_|]; [|lia]. cbn [bind].
      induction b as [|x b IHb]; cbn [mapM map]; [reflexivity|]. cbn [bind]. rewrite IHb. reflexivity. }
    cbn [bind]. rewrite map_app. reflexivity.
  Qed.

  (** ** the search *)
  Lemma first_above_spec ps : heavy ps -> forall acc tot t, (0 <= acc)%Z -> fval tot = XFin (IZR acc) ->
    (acc + zsum ps <= fint)%Z ->
    match first_above (map cen_of ps) tot t with
    | Some x => exists p1 p p2, ps = p1 ++ p :: p2 /\ fst p = x /\
                  xlt (fval t) (XFin (IZR (acc + zsum p1 + snd p))) /\
                  (p1 <> [] -> ~ xlt (fval t) (XFin (IZR (acc + zsum p1))))
    | None => ps <> [] -> ~ xlt (fval t) (XFin (IZR (acc + zsum ps)))
    end.
  Proof.
    induction 1 as [|p ps Hp Hps IH]; intros acc tot t Ha Ht Hf; cbn [map first_above]; [congruence|].
    unfold zsum in Hf; cbn [fold_right] in Hf; fold (zsum ps) in Hf.
    pose proof (zsum_nonneg Hps) as Hz.
    assert (fval (fadd (weight (cen_of p)) tot) = XFin (IZR (acc + snd p))) as Hs1.
    { cbn [cen_of weight]. erewrite fadd_fin; [|apply fval_int; lia|exact Ht]. rewrite <- plus_IZR, Z.add_comm.
      apply frnd_exact, fint_exact. lia. }
    assert (fval (fadd tot (weight (cen_of p))) = XFin (IZR (acc + snd p))) as Hs2.
    { cbn [cen_of weight]. erewrite fadd_fin; [|exact Ht|apply fval_int; lia]. rewrite <- plus_IZR.
      apply frnd_exact, fint_exact. lia. }
    rewrite fgt_flt. destruct (flt t (fadd (weight (cen_of p)) tot)) eqn:E.
    - apply flt_iff in E. rewrite Hs1 in E. exists [], p, ps. repeat split; auto.
      cbn [zsum fold_right]. replace (acc + 0 + snd p)%Z with (acc + snd p)%Z by lia. exact E.
    - assert (~ xlt (fval t) (XFin (IZR (acc + snd p)))) as HE.
      { intros C. rewrite <- Hs1 in C. apply flt_iff in C. congruence. }
      specialize (IH (acc + snd p)%Z _ t ltac:(lia) Hs2 ltac:(lia)).
      destruct (first_above (map cen_of ps) (fadd tot (weight (cen_of p))) t) as [x|].
      + destruct IH as (p1 & p' & p2 & -> & Hx & H1 & H2). exists (p :: p1), p', p2. repeat split; auto.
        * unfold zsum in *; cbn [fold_right] in *. rewrite Z.add_assoc. exact H1.
        * intros _. unfold zsum; cbn [fold_right]; fold (zsum p1). rewrite Z.add_assoc.
          destruct p1 as [|p0 p1]; [unfold zsum; cbn [fold_right]; rewrite Z.add_0_r; exact HE|apply H2; discriminate].
      + intros _. unfold zsum; cbn [fold_right]; fold (zsum ps). rewrite Z.add_assoc.
        destruct ps as [|p0 ps]; [unfold zsum; cbn [fold_right]; rewrite Z.add_0_r; exact HE|apply IH; discriminate].
  Qed.

  (** the answer of [est_value_at_quantile] for the target [t] = q * count: the smallest held value whose rank exceeds
      [t], or the largest held value if there is none *)
  Definition value_spec (lv : list level) (t : xr) (x : F) : Prop :=
    In x (lv_items lv) /\
    ((xlt t (XFin (INR (lv_rank lv x))) /\
      forall y, In y (lv_items lv) -> flt y x = true -> ~ xlt t (XFin (INR (lv_rank lv y)))) \/
     ((forall y, In y (lv_items lv) -> ~ xlt t (XFin (INR (lv_rank lv y)))) /\
      forall y, In y (lv_items lv) -> fle y x = true)).

  Lemma xlt_le_fin t a b : xlt t (XFin a) -> (a <= b)%R -> xlt t (XFin b).
  Proof. intros H Hab. apply xlt_le_trans with (XFin a); auto. apply xle_iff. exact Hab. Qed.

  Lemma rc_est_value_val (s : rc F) q : length (rc_levels s) <= 31 -> (Z.of_nat (lv_weight (rc_levels s)) <= fint)%Z ->
    no_nan (lv_items (rc_levels s)) -> lv_items (rc_levels s) <> [] ->
    exists x, rc_est_value s q = Ret x /\ value_spec (rc_levels s) (fval (fmul q (fofZ (rc_count s)))) x.
  Proof.
    intros Hl Hw Hn Hne. unfold rc_est_value, sorted_weighted_values. set (lv := rc_levels s) in *.
    rewrite weighted_from_val by lia. cbn [bind].
    set (ps0 := pairs 0 lv).
    assert (exists ps, sort_by_key mean (map cen_of ps0) = Ret (map cen_of ps) /\ Permutation ps0 ps /\
              StronglySorted (kle (fun p => fst p)) ps) as (ps & Es & Hp & Hs).
    { assert (keys_nn mean (map cen_of ps0)) as Hkn.
      { unfold keys_nn. rewrite Forall_map. cbn [cen_of mean]. rewrite <- (Forall_map fst (fun x => fisnan x = false)).
        unfold ps0. rewrite pairs_items. exact Hn. }
      assert (always (fun l => exists ps, l = map cen_of ps /\ Permutation ps0 ps /\ StronglySorted (kle (fun p => fst p)) ps)
                (sort_by_key mean (map cen_of ps0))) as HA.
      { apply sort_by_key_ok; [exact Hkn|]. intros l Hpl Hsl.
        symmetry in Hpl. apply Permutation_map_inv in Hpl as (ps & -> & Hpp). exists ps. repeat split; auto.
        clear -Hsl. induction ps as [|p ps IH]; [constructor|]. cbn [map] in Hsl. inversion Hsl as [|? ? H1 H2]; subst.
        constructor; auto. rewrite Forall_map in H2. exact H2. }
      revert HA. unfold sort_by_key. destruct (map cen_of ps0) as [|c1 [|c2 cs]]; cbn [always].
      - intros (ps & E & ?). exists ps. rewrite <- E. auto.
      - intros (ps & E & ?). exists ps. rewrite <- E. auto.
      - destruct (existsb _ _); [intros []|]. intros (ps & E & ?). exists ps. cbn [always] in *. rewrite <- E. auto. }
    rewrite Es. cbn [bind].
    assert (heavy ps) as Hh by (eapply Permutation_Forall; [exact Hp|apply pairs_heavy; lia]).
    assert (zsum ps = Z.of_nat (lv_weight lv)) as Ez.
    { rewrite <- (zsum_perm Hp). unfold ps0. rewrite pairs_zsum by lia. lia. }
    assert (forall v, zrank ps v = Z.of_nat (lv_rank lv v)) as Er.
    { intros v. rewrite <- (zrank_perm v Hp). unfold ps0. rewrite pairs_zrank by lia. lia. }
    assert (forall x, In x (lv_items lv) <-> exists p, In p ps /\ fst p = x) as Hin.
    { intros x. unfold ps0 in Hp. rewrite <- (pairs_items lv 0), in_map_iff. split.
      - intros (p & E & H). exists p. split; auto. eapply Permutation_in; eauto.
      - intros (p & H & E). exists p. split; auto. eapply Permutation_in; [symmetry|]; eauto. }
    assert (forall p, In p ps -> fisnan (fst p) = false) as Hnn.
    { intros p H. unfold no_nan in Hn. rewrite Forall_forall in Hn. apply Hn, Hin. eauto. }
    set (t := fmul q (fofZ (rc_count s))).
    pose proof (first_above_spec Hh (acc := 0%Z) f0 t ltac:(lia) fval_f0 ltac:(lia)) as HF.
    destruct (first_above (map cen_of ps) f0 t) as [x|].
    - destruct HF as (p1 & p & p2 & E & Hx & H1 & H2). exists x. split; [reflexivity|]. split.
      { apply Hin. exists p. split; auto. rewrite E. apply in_or_app. right. now left. }
      left. rewrite E in Hs. apply SS_app in Hs as (_ & Hs2 & H12).
      assert (Forall (fun p' => fle x (fst p') = true) (p :: p2)) as Hge.
      { apply StronglySorted_inv in Hs2 as [_ Hall]. rewrite <- Hx. constructor; [|exact Hall].
        apply fle_refl. apply Hnn. rewrite E. apply in_or_app. right. now left. }
      rewrite E in Hh. apply Forall_app in Hh as [Hh1 Hh2].
      split.
      + eapply xlt_le_fin; [exact H1|]. rewrite INR_IZR_INZ. apply IZR_le. rewrite <- Er, E, zrank_app.
        rewrite (@zrank_all p1).
        2:{ apply Forall_forall. intros p' Hp'. rewrite <- Hx. apply (H12 p' p); auto. now left. }
        change (p :: p2) with ([p] ++ p2). rewrite zrank_app.
        rewrite (@zrank_all [p]).
        2:{ repeat constructor. apply Forall_inv in Hge. rewrite Hx in *. exact Hge. }
        apply Forall_inv_tail in Hh2. pose proof (@zrank_le p2 x Hh2). unfold zsum at 3. cbn [fold_right]. lia.
      + intros y Hy Hlt.
        assert (zrank ps y <= zsum p1)%Z as Hry.
        { rewrite E, zrank_app. rewrite (@zrank_none (p :: p2)).
          - pose proof (@zrank_le p1 y Hh1). lia.
          - eapply Forall_impl; [|exact Hge]. cbn. intros p' Hp'.
            destruct (fle (fst p') y) eqn:Ec; auto. pose proof (fle_trans _ _ _ Hp' Ec) as Hc.
            rewrite (flt_not_fle _ _ Hlt) in Hc. discriminate. }
        assert (p1 <> []) as Hne1.
        { apply Hin in Hy as (p' & Hp' & Ep'). rewrite E in Hp'. apply in_app_iff in Hp' as [Hp'|Hp']; [intros ->; destruct Hp'|].
          exfalso. rewrite Forall_forall in Hge. specialize (Hge p' Hp'). rewrite Ep' in Hge.
          rewrite (flt_not_fle _ _ Hlt) in Hge. discriminate. }
        intros C. apply (H2 Hne1). eapply xlt_le_fin; [exact C|]. rewrite INR_IZR_INZ, <- Er. apply IZR_le. lia.
    - assert (ps <> []) as Hpne.
      { intros ->. apply Hne. destruct (lv_items lv) as [|x l] eqn:El; auto. exfalso.
        destruct (proj1 (Hin x)) as (p & [] & _). now left. }
      specialize (HF Hpne).
      destruct (exists_last Hpne) as (ps' & p & E).
      rewrite E, map_app, rev_app_distr. cbn [map rev app]. exists (fst p). split; [reflexivity|]. split.
      { apply Hin. exists p. split; auto. rewrite E. apply in_or_app. right. now left. }
      right. split.
      + intros y Hy C. apply HF. eapply xlt_le_fin; [exact C|]. rewrite INR_IZR_INZ, <- Er. apply IZR_le.
        pose proof (@zrank_le ps y Hh). lia.
      + intros y Hy. apply Hin in Hy as (p' & Hp' & <-). rewrite E in Hp', Hs.
        apply SS_app in Hs as (_ & _ & H12). apply in_app_iff in Hp' as [Hp'|[<-|[]]].
        * apply (H12 p' p); auto. now left.
        * apply fle_refl. apply Hnn. rewrite E. apply in_or_app. right. now left.
  Qed.

  Lemma value_spec_mono lv t1 t2 x1 x2 : no_nan (lv_items lv) -> xle t1 t2 ->
    value_spec lv t1 x1 -> value_spec lv t2 x2 -> fle x1 x2 = true.
  Proof.
    intros Hn Ht [Hi1 H1] [Hi2 H2]. unfold no_nan in Hn. rewrite Forall_forall in Hn.
    destruct (fle_total _ _ (Hn _ Hi1) (Hn _ Hi2)) as [H|H]; auto. exfalso.
    destruct H2 as [[H2 _]|[_ H2]].
    - assert (xlt t1 (XFin (INR (lv_rank lv x2)))) as C by (eapply xle_lt_trans; eauto).
      destruct H1 as [[_ H1]|[H1 _]]; eapply H1; eauto.
    - specialize (H2 x1 Hi1). rewrite (flt_not_fle _ _ H) in H2. discriminate.
  Qed.

  (** ** rank queries *)
  Lemma interpolate_rank_val (s : rc F) v : length (rc_levels s) <= 64 ->
    interpolate_rank s v = Ret (Z.of_nat (lv_rank (rc_levels s) v)).
  Proof.
    intros H. unfold interpolate_rank. destruct (Nat.ltb_spec 64 (length (rc_levels s))); [lia|].
    rewrite rank_from_val by lia. f_equal. lia.
  Qed.

  Lemma rc_est_quantile_val (s : rc F) v n : length (rc_levels s) <= 64 ->
    (Z.of_nat (lv_weight (rc_levels s)) <= fint)%Z -> rc_count s = Z.of_nat n -> 1 <= n -> (Z.of_nat n <= fint)%Z ->
    exists a, rc_est_quantile s v = Ret a /\ fval a = frnd (INR (lv_rank (rc_levels s) v) / INR n).
  Proof.
    intros Hl Hw Hc Hn Hf. unfold rc_est_quantile. rewrite interpolate_rank_val by assumption. cbn [bind].
    eexists. split; [reflexivity|]. rewrite Hc.
    pose proof (lv_rank_le_weight (rc_levels s) v).
    rewrite (@fdiv_fin _ _ _ _ _ (INR (lv_rank (rc_levels s) v)) (INR n)).
    - reflexivity.
    - apply (fval_nat (lv_rank (rc_levels s) v)). lia.
    - apply (fval_nat n). lia.
    - apply not_0_INR. lia.
  Qed.

  (** ** number of levels *)
  Lemma halves_short n k (lv : list level) j : 1 <= k -> (N.of_nat (n / k) <= u32_max)%N -> j <= n ->
    halves k (spec_size n k) lv j -> length lv <= 31.
  Proof.
    intros Hk Hu Hj HH. destruct lv as [|l0 [|l1 up]]; [cbn; lia|cbn; lia|].
    assert (spec_size n k * 2 ^ length up <= j) as Hb by (eapply halves_levels with (k := k); eauto; apply spec_size_ge; exact Hk).
    destruct (Nat.le_gt_cases (length up) 29) as [Hle|Hgt]; [cbn [length]; lia|exfalso].
    set (h := length up) in *. unfold spec_size in Hb. set (L := Nat.log2_up (n / k)) in *.
    assert (2 ^ h * (2 * L) <= n / k /\ 2 ^ h * 2 <= n / k) as [H1 H2].
    { split; apply Nat.div_le_lower_bound; try lia.
      - assert (2 * k * L * 2 ^ h <= n) by (eapply Nat.le_trans; [|eapply Nat.le_trans; [exact Hb|exact Hj]];
          apply Nat.mul_le_mono_r; lia). lia.
      - assert (2 * k * 2 ^ h <= n) by (eapply Nat.le_trans; [|eapply Nat.le_trans; [exact Hb|exact Hj]];
          apply Nat.mul_le_mono_r; lia). lia. }
    assert (S h <= L) as HL.
    { unfold L. rewrite <- (Nat.log2_up_pow2 (S h)) by lia. apply Nat.log2_up_le_mono. rewrite Nat.pow_succ_r'. lia. }
    assert (2 ^ h * 60 <= n / k) as H3 by (eapply Nat.le_trans; [|exact H1]; apply Nat.mul_le_mono_l; lia).
    assert (N.of_nat (2 ^ h) * 60 <= u32_max)%N as H4 by lia.
    assert (N.of_nat (2 ^ h) = 2 ^ N.of_nat h)%N as E by (rewrite Nat2N.inj_pow; reflexivity).
    rewrite E in H4.
    assert (2 ^ 30 <= 2 ^ N.of_nat h)%N as H5 by (apply N.pow_le_mono_r; lia).
    change (2 ^ 30)%N with 1073741824%N in H5. unfold u32_max in H4. lia.
  Qed.
End RCQ.
