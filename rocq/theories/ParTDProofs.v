(** Proofs about the parallel t-digest. *)
From Coq Require Import List Arith ZArith Lia Bool Permutation Sorted Reals Lra Psatz.
From Flocq Require Import Core.
From Verif Require Import Base Floats XReal Digest TDigest Spec FloatFacts History MultiSymProofs ParallelProofs TDigestProofs TDigestProofs2 TDigestExact TDigestExactQ TDigestExactV TDigestHist TDigestTop TDigestCluster.
Set Implicit Arguments.

(* ------------------------------------------------------------------ *)
(** * Any arithmetic: the count *)
Section Count.
  Context {F : Type} {FO : FloatOps F} {FL : FloatLaws F}.
  Variable cfg : tcfg F.
  Hypothesis Hlib : lib_ok cfg.
  Variables (threads capacity : nat).
  Hypothesis Hth : 1 <= threads.
  Notation PD := (par_t_digest cfg threads capacity td_new).
  Notation flush := (pt_flush cfg threads td_new).

  Definition pcounts (s : pardigest F) (its : list F) : Prop :=
    (Z.of_nat (length its) <= fint)%Z -> exists n, holds (pt_digest s) n /\ (n + Z.of_nat (length (pt_buffer s)) = Z.of_nat (length its))%Z.

  Lemma new_holds : holds (F := F) td_new 0.
  Proof. exists []. split; [constructor|reflexivity]. Qed.

  Lemma flat_holds (css : list (list F)) ds : Forall2 (fun c d => holds d (Z.of_nat (length c))) css ds ->
    exists zs, wts (flat_map t_centroids ds) zs /\ sumZ zs = Z.of_nat (length (concat css)).
  Proof.
    induction 1 as [|c d css ds (zs & H1 & H2) H (zs' & A & B)]; cbn [flat_map concat].
    - exists []. split; [constructor|reflexivity].
    - exists (zs ++ zs'). split; [now apply wts_app|]. rewrite sumZ_app, app_length. lia.
  Qed.

  Lemma flush_counts s its : pcounts s its -> whenever (fun s' => pcounts s' its /\ pt_buffer s' = []) (flush s).
  Proof.
    intros HP. unfold pt_flush. destruct (pt_buffer s) as [|x b] eqn:Eb; [split; auto|]. rewrite <- Eb in *. clear x b Eb.
    assert (chunks threads (pt_buffer s) = Ret (chunks_list threads (pt_buffer s))) as -> by (unfold chunks; destruct threads; [lia|reflexivity]). cbn [bind].
    destruct (Z_le_gt_dec (Z.of_nat (length its)) fint) as [L|L].
    - destruct (HP L) as (m & Hm & En).
      assert (whenever (fun ds => Forall2 (fun c d => holds d (Z.of_nat (length c))) (chunks_list threads (pt_buffer s)) ds)
        (mapM (fun chunk => td_add_buffer cfg td_new chunk) (chunks_list threads (pt_buffer s)))) as H1.
      { apply mapM_whenever_P. apply Forall_forall. intros c Hc. unfold td_add_buffer.
        destruct (unit_wts c) as [W1 W2]. eapply whenever_mono; [apply (@add_centroid_buffer_weight F FO FL cfg Hlib td_new 0 _ _ new_holds W1)|].
        - rewrite W2. assert (length c <= length (pt_buffer s)).
          { rewrite <- (@chunks_list_concat _ threads (pt_buffer s)) by lia. apply in_split in Hc as (l1 & l2 & ->). rewrite concat_app, app_length. cbn [concat]. rewrite app_length. lia. }
          destruct Hm as (zs & Hw & <-). pose proof (sumZ_pos (wts_pos Hw)). lia.
        - cbn beta. rewrite W2. intros a Ha. now rewrite Z.add_0_l in Ha. }
      eapply whenever_bind; [exact H1|]. intros ds Hds.
      eapply whenever_bind; [apply whenever_true|]. intros omin _. eapply whenever_bind; [apply whenever_true|]. intros dmin _.
      eapply whenever_bind; [apply whenever_true|]. intros omax _. eapply whenever_bind; [apply whenever_true|]. intros dmax _. cbv zeta.
      destruct (flat_holds Hds) as (zs & W1 & W2). rewrite chunks_list_concat in W2 by lia.
      set (d := {| t_centroids := _ |}). assert (holds d m) as Hd by exact Hm.
      eapply whenever_bind; [apply (@add_centroid_buffer_weight F FO FL cfg Hlib d m _ _ Hd W1); lia|].
      intros d' Hd'. cbn [whenever pt_buffer]. split; auto. intros _. eexists. split; [exact Hd'|]. cbn [pt_buffer length]. lia.
    - eapply whenever_bind; [apply whenever_true|]. intros ds _.
      eapply whenever_bind; [apply whenever_true|]. intros omin _. eapply whenever_bind; [apply whenever_true|]. intros dmin _.
      eapply whenever_bind; [apply whenever_true|]. intros omax _. eapply whenever_bind; [apply whenever_true|]. intros dmax _. cbv zeta.
      eapply whenever_bind; [apply whenever_true|]. intros d' _. cbn [whenever pt_buffer]. split; auto. intros L'. lia.
  Qed.

  Lemma add_counts s its l : pcounts s its -> whenever (fun s' => pcounts s' (its ++ l)) (pt_add_buffer cfg threads capacity td_new s l).
  Proof.
    intros HP. unfold pt_add_buffer. cbv zeta.
    assert (pcounts {| pt_digest := pt_digest s; pt_buffer := pt_buffer s ++ l |} (its ++ l)) as HP'.
    { intros L. rewrite app_length in L. destruct (HP ltac:(lia)) as (n & Hn & E). exists n. cbn [pt_digest pt_buffer]. rewrite !app_length. split; auto. lia. }
    destruct (_ <? _); [|exact HP']. eapply whenever_mono; [eapply flush_counts; eassumption|]. intros a [A _]. exact A.
  Qed.

  Lemma pt_exec_counts ops : whenever (fun r => pcounts (fst r) (items_of ops)) (exec PD (pt_new td_new) ops).
  Proof.
    apply (@exec_whenever F PD pcounts) with (its := []).
    - intros s its o HP. destruct o as [x|l|v|q]; cbn [step items_of].
      + cbn [d_add par_t_digest]. unfold pt_add. eapply whenever_bind; [eapply add_counts; eassumption|]. intros s' Hs'. exact Hs'.
      + rewrite app_nil_r. cbn [d_add_buffer par_t_digest]. eapply whenever_bind; [eapply add_counts; eassumption|]. intros s' Hs'. exact Hs'.
      + rewrite app_nil_r. cbn [d_est_q par_t_digest]. eapply whenever_bind with (P := fun r => pcounts (fst r) its).
        * eapply whenever_bind; [eapply flush_counts; eassumption|]. intros s' [Hs' _]. eapply whenever_bind; [apply whenever_true|]. intros a _. exact Hs'.
        * intros [s' a] Hs'. exact Hs'.
      + rewrite app_nil_r. cbn [d_est_v par_t_digest]. eapply whenever_bind with (P := fun r => pcounts (fst r) its).
        * eapply whenever_bind; [eapply flush_counts; eassumption|]. intros s' [Hs' _]. eapply whenever_bind; [apply whenever_true|]. intros a _. exact Hs'.
        * intros [s' a] Hs'. exact Hs'.
    - intros _. exists 0%Z. split; [exact new_holds|reflexivity].
  Qed.

  (** ** C29 *)
  Theorem pt_history_count ops : (Z.of_nat (length (items_of ops)) <= fint)%Z -> (Z.of_nat (length (items_of ops)) <= 2 ^ 53)%Z ->
    whenever (fun r => d_count PD (fst r) = Ret (Z.of_nat (length (items_of ops)))) (exec PD (pt_new td_new) ops).
  Proof.
    intros L1 L2. eapply whenever_mono; [apply pt_exec_counts|]. intros [s a] HP. cbn [fst] in *. destruct (HP L1) as (n & Hn & E).
    cbn [d_count par_t_digest]. destruct Hn as (zs & Hw & En). pose proof (sumZ_pos (wts_pos Hw)).
    destruct (@holds_count F FO FL _ n (ex_intro _ zs (conj Hw En))) as [_ ->]; [lia|lia|]. cbn [bind]. now rewrite E.
  Qed.
End Count.

(* ------------------------------------------------------------------ *)
(** * Exact arithmetic *)
Local Open Scope R_scope.
Lemma concat_map_inv {A B} (f : A -> B) gs : forall l, concat gs = map f l -> exists rs, gs = map (map f) rs /\ concat rs = l.
Proof.
  induction gs as [|g gs IH]; intros l; cbn [concat].
  - intros E. symmetry in E. apply map_eq_nil in E. subst. exists []. auto.
  - intros E. symmetry in E. apply map_eq_app in E as (l1 & l2 & -> & <- & E). symmetry in E. destruct (IH _ E) as (rs & -> & <-).
    exists (l1 :: rs). auto.
Qed.

Section Keys.
  Context {A : Type} (key : A -> xr).
  Definition keyed (k : A -> R) (l : list A) : Prop := Forall (fun a => key a = XFin (k a)) l.
  Lemma min_key k l : l <> [] -> keyed k l -> exists d, min_by_key key l = Ret (Some d) /\ In d l /\ forall e, In e l -> k d <= k e.
  Proof.
    intros Hne. destruct l as [|a l]; [congruence|]. clear Hne. cbn [min_by_key]. unfold liftM. revert a. induction l as [|x l IH]; intros a Hk; cbn [foldM].
    - exists a. split; [reflexivity|]. split; [now left|]. intros e [->|[]]; lra.
    - pose proof (Forall_inv Hk) as Ha. pose proof (Forall_inv (Forall_inv_tail Hk)) as Hx. pose proof (Forall_inv_tail (Forall_inv_tail Hk)) as Hl.
      rewrite Ha, Hx. change (cmp_unwrap (XFin (k a)) (XFin (k x))) with (@Ret comparison (Rcompare (k a) (k x))). cbn [bind].
      destruct (Rcompare_spec (k a) (k x)) as [C|C|C].
      + destruct (IH a) as (d & E & D1 & D2); [now constructor|]. exists d. split; [exact E|]. split; [destruct D1 as [->|]; [now left|now right; right]|].
        intros e [->|[->|He]]; [apply D2; now left| |apply D2; now right]. specialize (D2 a (or_introl eq_refl)). lra.
      + destruct (IH a) as (d & E & D1 & D2); [now constructor|]. exists d. split; [exact E|]. split; [destruct D1 as [->|]; [now left|now right; right]|].
        intros e [->|[->|He]]; [apply D2; now left| |apply D2; now right]. specialize (D2 a (or_introl eq_refl)). lra.
      + destruct (IH x) as (d & E & D1 & D2); [now constructor|]. exists d. split; [exact E|]. split; [now right|].
        intros e [->|He]; [|now apply D2]. specialize (D2 x (or_introl eq_refl)). lra.
  Qed.
  Lemma max_key k l : l <> [] -> keyed k l -> exists d, max_by_key key l = Ret (Some d) /\ In d l /\ forall e, In e l -> k e <= k d.
  Proof.
    intros Hne. destruct l as [|a l]; [congruence|]. clear Hne. cbn [max_by_key]. unfold liftM. revert a. induction l as [|x l IH]; intros a Hk; cbn [foldM].
    - exists a. split; [reflexivity|]. split; [now left|]. intros e [->|[]]; lra.
    - pose proof (Forall_inv Hk) as Ha. pose proof (Forall_inv (Forall_inv_tail Hk)) as Hx. pose proof (Forall_inv_tail (Forall_inv_tail Hk)) as Hl.
      rewrite Ha, Hx. change (cmp_unwrap (XFin (k a)) (XFin (k x))) with (@Ret comparison (Rcompare (k a) (k x))). cbn [bind].
      destruct (Rcompare_spec (k a) (k x)) as [C|C|C].
      + destruct (IH x) as (d & E & D1 & D2); [now constructor|]. exists d. split; [exact E|]. split; [now right|].
        intros e [->|He]; [|now apply D2]. specialize (D2 x (or_introl eq_refl)). lra.
      + destruct (IH x) as (d & E & D1 & D2); [now constructor|]. exists d. split; [exact E|]. split; [now right|].
        intros e [->|He]; [|now apply D2]. specialize (D2 x (or_introl eq_refl)). lra.
      + destruct (IH a) as (d & E & D1 & D2); [now constructor|]. exists d. split; [exact E|]. split; [destruct D1 as [->|]; [now left|now right; right]|].
        intros e [->|[->|He]]; [apply D2; now left| |apply D2; now right]. specialize (D2 a (or_introl eq_refl)). lra.
  Qed.
End Keys.

(** what the merged digest satisfies: everything but the extremes *)
Record dinv (s : tdigest xr) (pre : list R) (cs : list rcen) (lo hi : R) : Prop := {
  di_cs : t_centroids s = map emb cs;
  di_ne : cs <> [];
  di_heavy : Forall heavy cs;
  di_sorted : rsorted cs;
  di_sum : Sm cs = sumR pre;
  di_wt : Wt cs = INR (length pre);
  di_min : t_min s = XFin lo;
  di_max : t_max s = XFin hi;
  di_lo : exists x, In x pre /\ x <= lo;
  di_hi : exists x, In x pre /\ hi <= x;
  di_rng : Forall (fun c => lo <= fst c <= hi) cs;
}.
Definition dexact (s : tdigest xr) (pre : list R) : Prop :=
  (pre = [] /\ t_centroids s = []) \/ (pre <> [] /\ exists cs lo hi, dinv s pre cs lo hi).

Section Queries.
  Lemma total_d s pre cs lo hi : dinv s pre cs lo hi -> total_weight s = XFin (Wt cs).
  Proof. intros I. unfold total_weight. rewrite (di_cs I). apply sum_weights_emb. Qed.

  Lemma heavy_wts B (HB : (4096 <= B)%Z) cs : Forall heavy cs -> exists zs, @wts xr xr_ops (xr_laws HB) (map emb cs) zs /\ IZR (sumZ zs) = Wt cs.
  Proof.
    induction 1 as [|c cs (z & H1 & H2) H (zs & A1 & A2)]; cbn [map].
    - exists []. split; [constructor|reflexivity].
    - exists (z :: zs). split; [constructor; auto; split; auto; cbn [emb weight fval]; now rewrite H2|].
      rewrite sumZ_cons, plus_IZR, Wt_cons, A2. now rewrite <- H2.
  Qed.

  Lemma d_est_q_returns s pre v : dexact s pre -> v <> XNaN -> exists a, td_est_q s v = Ret a.
  Proof.
    intros H Hv. apply (@td_est_q_total xr xr_ops (xr_laws (Z.le_refl 4096))).
    - apply (@fisnan_false xr xr_ops (xr_laws (Z.le_refl 4096))). exact Hv.
    - destruct H as [(_ & ->)|(_ & cs & lo & hi & I)]; [constructor|]. rewrite (di_cs I). apply clean_emb.
  Qed.

  Lemma d_est_v_returns s pre q : dexact s pre -> 0 <= q <= 1 -> (Z.of_nat (length pre) < 2 ^ 64)%Z -> exists a, td_est_v s (XFin q) = Ret a.
  Proof.
    intros [(-> & E1)|(Hne & cs & lo & hi & I)] Hq Hn.
    - unfold td_est_v, total_weight, sum_weights. rewrite E1. cbn [map fsum64 xr_ops fold_left]. rewrite xmul_fin, xf1.
      rewrite (proj2 (xlt_b (0 * q) 1)) by lra. eauto.
    - set (n := Z.of_nat (length pre)) in *. assert (4096 <= Z.max 4096 (2 * n))%Z as HB by lia.
      destruct (heavy_wts HB (di_heavy I)) as (zs & W1 & W2). rewrite (di_wt I), INR_IZR_INZ in W2. apply eq_IZR in W2. fold n in W2.
      apply (@td_est_v_total_gen xr xr_ops (xr_laws HB) s n (XFin q) q).
      + exists zs. rewrite (di_cs I). auto.
      + rewrite (total_d I), (di_wt I), INR_IZR_INZ. reflexivity.
      + cbn [fint xr_laws]. lia.
      + exact Hn.
      + reflexivity.
      + exact Hq.
  Qed.

  Lemma d_count_is s pre : dexact s pre -> (Z.of_nat (length pre) < 2 ^ 64)%Z -> td_count s = Ret (Z.of_nat (length pre)).
  Proof.
    intros [(-> & Hc)|(_ & cs & lo & hi & I)] Hn.
    - unfold td_count, total_weight, sum_weights. rewrite Hc. cbn [map].
      assert (ftoZ (fsum64 (@nil xr)) = Some (Ztrunc 0)) as ->.
      { cbn. rewrite Rlt_bool_true, Rlt_bool_true by lra. reflexivity. }
      cbn [unwrap length]. rewrite Ztrunc_floor by lra. change 0 with (IZR 0). rewrite Zfloor_IZR. reflexivity.
    - unfold td_count. rewrite (total_d I), (di_wt I), INR_IZR_INZ.
      assert (ftoZ (XFin (IZR (Z.of_nat (length pre)))) = Some (Z.of_nat (length pre))) as ->; [|reflexivity].
      assert (0 <= IZR (Z.of_nat (length pre)) < IZR (2 ^ 64)) as [A B].
      { split; [apply IZR_le; lia|apply IZR_lt; auto]. }
      cbn [ftoZ xr_ops xtoZ]. rewrite Rlt_bool_true by lra. rewrite Rlt_bool_true by exact B. cbn [andb]. f_equal. rewrite Ztrunc_floor by lra.
      apply Zfloor_IZR.
  Qed.

  Lemma d_ends s pre cs lo hi : dinv s pre cs lo hi -> td_est_v s f0 = Ret (XFin lo) /\ td_est_v s f1 = Ret (XFin hi).
  Proof.
    intros I. pose proof (posint_ge (Wt_posint (di_heavy I) (di_ne I))) as HT.
    unfold td_est_v. cbv zeta. rewrite (total_d I), xf0, xf1, xf2, !xmul_fin, Rmult_0_r, Rmult_1_r.
    rewrite (proj2 (xlt_b 0 1)) by lra. split; [rewrite (di_min I); reflexivity|].
    rewrite (proj2 (xlt_f _ 1)) by lra. rewrite (di_cs I).
    pose proof (di_ne I) as Hne. pose proof (di_heavy I) as Hh. destruct cs as [|c cs]; [congruence|]. cbn [map head unwrap bind emb weight].
    pose proof (posint_ge (Forall_inv Hh)) as Hc1.
    assert (snd c <= Wt (c :: cs)) as Hc.
    { rewrite Wt_cons. pose proof (Wt_nonneg (Forall_inv_tail Hh)). lra. }
    rewrite (@xdiv_fin (snd c) 2) by lra. rewrite (proj2 (xlt_f (Wt (c :: cs)) (snd c / 2))) by lra. rewrite andb_false_r.
    rewrite xsub_fin. rewrite (proj2 (xgt_b _ (Wt (c :: cs) - 1))) by lra. rewrite (di_max I). reflexivity.
  Qed.
End Queries.

Section Exact.
  Variable cfg : tcfg xr.
  Hypothesis Hlib : lib_ok cfg.
  Variables (threads capacity : nat).
  Hypothesis Hth : (1 <= threads)%nat.
  Notation PD := (par_t_digest cfg threads capacity td_new).
  Notation flush := (pt_flush cfg threads td_new).

  Lemma chunk_digests (css : list (list R)) : Forall (fun c => c <> []) css ->
    exists ds, mapM (fun chunk => td_add_buffer cfg td_new chunk) (map (map XFin) css) = Ret ds /\
      Forall2 (fun c d => c <> [] /\ exists cs lo hi, tinv d c cs lo hi) css ds.
  Proof.
    induction 1 as [|c css Hc H (ds & E & HF)]; cbn [map mapM].
    - exists []. split; [reflexivity|constructor].
    - destruct (@add_buffer_exact cfg Hlib td_new [] c) as (d & E1 & Hd); [left; auto|]. rewrite E1. cbn [bind]. rewrite E. cbn [bind].
      exists (d :: ds). split; [reflexivity|]. constructor; auto. split; auto. cbn [app] in Hd.
      destruct Hd as [(Hd & _)|(_ & Hd)]; [congruence|exact Hd].
  Qed.

  Lemma chunk_centroids css ds : Forall2 (fun c d => c <> [] /\ exists cs lo hi, tinv d c cs lo hi) css ds ->
    exists all, flat_map t_centroids ds = map emb all /\ Forall heavy all /\ Wt all = INR (length (concat css)) /\ Sm all = sumR (concat css) /\
      (css <> [] -> all <> []) /\ (forall lo hi, (forall x, In x (concat css) -> lo <= x <= hi) -> Forall (fun c => lo <= fst c <= hi) all).
  Proof.
    induction 1 as [|c d css ds (Hc & cs & lo & hi & I) H (all & A1 & A2 & A3 & A4 & A5 & A6)]; cbn [flat_map concat].
    - exists []. repeat split; auto. 
    - exists (cs ++ all). rewrite A1, (ti_cs I), map_app. split; [reflexivity|]. split; [apply Forall_app; split; auto; apply (ti_heavy I)|].
      rewrite Wt_app, Sm_app, (ti_wt I), (ti_sum I), A3, A4, app_length, plus_INR, sumR_app. split; [reflexivity|]. split; [reflexivity|]. split.
      + intros _ E. apply app_eq_nil in E as [E _]. exact (ti_ne I E).
      + intros l h Hb. apply Forall_app. split; [|apply A6; intros; apply Hb, in_or_app; auto].
        eapply Forall_impl; [|exact (ti_rng I)]. intros e He. cbn beta in *.
        pose proof (Hb lo (in_or_app _ _ _ (or_introl (proj1 (ti_lo I))))). pose proof (Hb hi (in_or_app _ _ _ (or_introl (proj1 (ti_hi I))))). lra.
  Qed.

  Definition rval (x : xr) : R := match x with XFin r => r | _ => 0 end.
  Lemma chunk_keyed css ds : Forall2 (fun c d => c <> [] /\ exists cs lo hi, tinv d c cs lo hi) css ds ->
    keyed t_min (fun d => rval (t_min d)) ds /\ keyed t_max (fun d => rval (t_max d)) ds.
  Proof.
    induction 1 as [|c d css ds (Hc & cs & lo & hi & I) H [A B]]; split; constructor; auto; [rewrite (ti_min I)|rewrite (ti_max I)]; reflexivity.
  Qed.
  Lemma chunk_in_l css ds c : Forall2 (fun c d => c <> [] /\ exists cs lo hi, tinv d c cs lo hi) css ds -> In c css ->
    exists d cs lo hi, In d ds /\ tinv d c cs lo hi.
  Proof.
    induction 1 as [|c' d css ds (Hc & cs & lo & hi & I) H IH]; intros []; [subst; exists d, cs, lo, hi; split; auto; now left|].
    destruct (IH H0) as (d' & x & y & z & A & B). exists d', x, y, z. split; auto. now right.
  Qed.
  Lemma chunk_in_r css ds d : Forall2 (fun c d => c <> [] /\ exists cs lo hi, tinv d c cs lo hi) css ds -> In d ds ->
    exists c cs lo hi, In c css /\ tinv d c cs lo hi.
  Proof.
    induction 1 as [|c d' css ds (Hc & cs & lo & hi & I) H IH]; intros []; [subst; exists c, cs, lo, hi; split; auto; now left|].
    destruct (IH H0) as (c' & x & y & z & A & B). exists c', x, y, z. split; auto. now right.
  Qed.

  (** flushing a buffer of finite values *)
  Lemma flush_exact s pre b : dexact (pt_digest s) pre -> pt_buffer s = map XFin b -> b <> [] ->
    exists s' cs lo hi, flush s = Ret s' /\ pt_buffer s' = [] /\ dinv (pt_digest s') (pre ++ b) cs lo hi /\
      (forall x, In x b -> lo <= x <= hi) /\ (pre = [] -> leastR b lo /\ mostR b hi).
  Proof.
    intros Hd Eb Hb. unfold pt_flush. destruct (pt_buffer s) as [|x0 b0] eqn:E0; [symmetry in Eb; apply map_eq_nil in Eb; congruence|].
    rewrite <- E0 in *. clear x0 b0 E0. rewrite Eb.
    assert (chunks threads (map XFin b) = Ret (chunks_list threads (map XFin b))) as -> by (unfold chunks; destruct threads; [lia|reflexivity]). cbn [bind].
    pose proof (@chunks_list_concat _ threads (map XFin b) Hth) as Ec. pose proof (@chunks_list_bounds _ threads (map XFin b) Hth) as Hbd.
    destruct (concat_map_inv _ _ _ Ec) as (css & Ech & Ecc). rewrite Ech in Hbd |- *.
    assert (Forall (fun c => c <> []) css) as Hne.
    { rewrite Forall_map in Hbd. eapply Forall_impl; [|exact Hbd]. intros c Hc ->. cbn in Hc. lia. }
    destruct (chunk_digests Hne) as (ds & -> & HF). cbn [bind].
    assert (css <> []) as Hcss by (intros ->; cbn in Ecc; congruence).
    assert (ds <> []) as Hds by (intros ->; inversion HF; subst; congruence).
    destruct (chunk_keyed HF) as [K1 K2].
    destruct (@min_key _ t_min _ ds Hds K1) as (dmin & -> & M1 & M2). cbn [bind unwrap]. destruct (@max_key _ t_max _ ds Hds K2) as (dmax & -> & N1 & N2). cbn [bind unwrap].
    (* the batch extremes *)
    assert (exists mn, t_min dmin = XFin mn /\ leastR b mn) as (mn & Emn & Hmn).
    { destruct (@chunk_in_r css ds dmin HF M1) as (c & cs & lo & hi & Hc & I). exists lo. split; [exact (ti_min I)|]. split.
      - rewrite <- Ecc. apply in_concat. exists c. split; auto. apply (ti_lo I).
      - intros y Hy. rewrite <- Ecc in Hy. apply in_concat in Hy as (c' & Hc' & Hy). destruct (@chunk_in_l css ds c' HF Hc') as (d' & cs' & lo' & hi' & Hd' & I').
        specialize (M2 d' Hd'). rewrite (ti_min I), (ti_min I') in M2. cbn [rval] in M2. pose proof (proj2 (ti_lo I') y Hy). lra. }
    assert (exists mx, t_max dmax = XFin mx /\ mostR b mx) as (mx & Emx & Hmx).
    { destruct (@chunk_in_r css ds dmax HF N1) as (c & cs & lo & hi & Hc & I). exists hi. split; [exact (ti_max I)|]. split.
      - rewrite <- Ecc. apply in_concat. exists c. split; auto. apply (ti_hi I).
      - intros y Hy. rewrite <- Ecc in Hy. apply in_concat in Hy as (c' & Hc' & Hy). destruct (@chunk_in_l css ds c' HF Hc') as (d' & cs' & lo' & hi' & Hd' & I').
        specialize (N2 d' Hd'). rewrite (ti_max I), (ti_max I') in N2. cbn [rval] in N2. pose proof (proj2 (ti_hi I') y Hy). lra. }
    rewrite Emn, Emx. destruct (chunk_centroids HF) as (all & -> & A2 & A3 & A4 & A5 & A6). rewrite Ecc in *. specialize (A5 Hcss).
    destruct Hmn as [Mn1 Mn2], Hmx as [Mx1 Mx2].
    assert (Forall (fun c => mn <= fst c <= mx) all) as Hall by (apply A6; auto).
    (* the centroids already there *)
    assert (exists old, t_centroids (pt_digest s) = map emb old /\ Forall heavy old /\ Wt old = INR (length pre) /\ Sm old = sumR pre /\
      (forall c, In c old -> exists x y, In x pre /\ In y pre /\ x <= fst c <= y) /\ (pre = [] -> old = [])) as (old & O1 & O2 & O3 & O4 & O5 & O6).
    { destruct Hd as [(-> & E)|(Hp & cs & lo & hi & I)].
      - exists []. rewrite E. repeat split; auto. intros c [].
      - exists cs. split; [apply (di_cs I)|]. split; [apply (di_heavy I)|]. split; [apply (di_wt I)|]. split; [apply (di_sum I)|]. split; [|congruence].
        intros c Hc. destruct (di_lo I) as (x & X1 & X2). destruct (di_hi I) as (y & Y1 & Y2). exists x, y.
        pose proof (di_rng I) as R. rewrite Forall_forall in R. specialize (R c Hc). repeat split; auto; lra. }
    set (d := {| t_centroids := t_centroids (pt_digest s); t_min := XFin mn; t_max := XFin mx; t_tick := t_tick (pt_digest s) |}).
    destruct (@merge_exact cfg Hlib d old all O1 O2 A2) as (sr & rs & f & l & B1 & B2 & B3 & B4 & B5 & B6 & B7 & _ & ->).
    { intros E. apply app_eq_nil in E as [E _]. congruence. }
    cbn [bind t_min t_max d]. unfold d. cbn [t_min t_max]. rewrite xmin_fin, xmax_fin.
    destruct (ravg_sums B4 B5) as (W1 & W2 & W3). rewrite B3, (Wt_perm B1), Wt_app in W1. rewrite B3, (Sm_perm B1), Sm_app in W2.
    assert (forall c, In c sr -> fst f <= fst c) as Hf. { destruct sr as [|f' sr]; [discriminate|]. injection B6 as ->. now apply sorted_head_le. }
    assert (forall c, In c sr -> fst c <= fst l) as Hl. { destruct (last_error_split _ B7) as (s0 & ->). now apply sorted_last_ge. }
    assert (forall c, In c sr -> In c all \/ In c old) as Hor. { intros c Hc. apply (Permutation_in _ B1) in Hc. now apply in_app_or. }
    assert (In f sr) as Inf by now apply head_In. assert (In l sr) as Inl by now apply last_error_In.
    eexists. exists (map ravg rs), (Rmin mn (fst f)), (Rmax mx (fst l)). split; [reflexivity|]. split; [reflexivity|]. cbn [pt_digest]. split; [|split].
    - constructor; cbn [t_centroids t_min t_max]; auto.
      + intros E. apply map_eq_nil in E. subst rs. cbn in B3. subst sr. discriminate.
      + apply ravg_sorted; auto. now rewrite B3.
      + rewrite W2, A4, O4, sumR_app. lra.
      + rewrite W1, A3, O3, app_length, plus_INR. lra.
      + unfold Rmin. destruct (Rle_dec mn (fst f)); [exists mn; split; [apply in_or_app; auto|lra]|].
        destruct (Hor f Inf) as [Hi|Hi]; [rewrite Forall_forall in Hall; specialize (Hall f Hi); lra|].
        destruct (O5 f Hi) as (x & y & X1 & X2 & X3). exists x. split; [apply in_or_app; auto|lra].
      + unfold Rmax. destruct (Rle_dec mx (fst l)) as [L|L]; [|exists mx; split; [apply in_or_app; auto|lra]].
        destruct (Hor l Inl) as [Hi|Hi]; [rewrite Forall_forall in Hall; specialize (Hall l Hi); exists mx; split; [apply in_or_app; auto|lra]|].
        destruct (O5 l Hi) as (x & y & X1 & X2 & X3). exists y. split; [apply in_or_app; auto|lra].
      + apply Forall_map. rewrite Forall_forall in B4, B5 |- *. intros g Hg.
        assert (forall c, In c g -> In c sr) as Hgs by (intros c Hc; rewrite <- B3; apply in_concat; eauto).
        split.
        * eapply Rle_trans; [apply Rmin_r|]. apply ravg_ge; auto.
        * eapply Rle_trans; [|apply Rmax_r]. apply ravg_le; auto.
    - intros x Hx. specialize (Mn2 x Hx). specialize (Mx2 x Hx). pose proof (Rmin_l mn (fst f)). pose proof (Rmax_l mx (fst l)). lra.
    - intros Hpre. rewrite (O6 Hpre) in Hor. rewrite Forall_forall in Hall.
      destruct (Hor f Inf) as [F1|[]]. destruct (Hor l Inl) as [L1|[]]. pose proof (Hall f F1). pose proof (Hall l L1).
      rewrite Rmin_left, Rmax_left by lra. repeat split; auto.
  Qed.

  (** the state after items [its]: those before [b] are merged, those in [b] still buffered *)
  Definition pexact (s : pardigest xr) (its : list R) : Prop :=
    exists pre b, its = pre ++ b /\ dexact (pt_digest s) pre /\ pt_buffer s = map XFin b.

  Lemma flush_any s its : pexact s its -> exists s', flush s = Ret s' /\ pt_buffer s' = [] /\ dexact (pt_digest s') its.
  Proof.
    intros (pre & b & -> & Hd & Eb). destruct b as [|x b].
    - exists s. unfold pt_flush. rewrite Eb. cbn [map]. rewrite app_nil_r. auto.
    - destruct (@flush_exact s pre (x :: b) Hd Eb) as (s' & cs & lo & hi & E & B & I & _); [discriminate|].
      exists s'. split; auto. split; auto. right. split; [intros E0; apply app_eq_nil in E0 as [_ ?]; discriminate|]. eauto.
  Qed.
  Lemma flushed s its : pt_buffer s = [] -> dexact (pt_digest s) its -> pexact s its.
  Proof. intros E H. exists its, []. rewrite app_nil_r. auto. Qed.

  Lemma add_pexact s its l : pexact s its -> exists s', pt_add_buffer cfg threads capacity td_new s (map XFin l) = Ret s' /\ pexact s' (its ++ l).
  Proof.
    intros (pre & b & -> & Hd & Eb). unfold pt_add_buffer. cbv zeta.
    set (s1 := {| pt_digest := pt_digest s; pt_buffer := pt_buffer s ++ map XFin l |}).
    assert (pexact s1 ((pre ++ b) ++ l)) as H1.
    { exists pre, (b ++ l). rewrite app_assoc. split; auto. split; auto. cbn [pt_buffer s1]. unfold s1. cbn [pt_buffer]. now rewrite Eb, map_app. }
    destruct (_ <? _)%nat; [|eauto]. destruct (flush_any H1) as (s' & E & A & B). exists s'. split; auto. now apply flushed.
  Qed.

  Theorem pt_exec_exact ops rs : Forall xok ops -> items_of ops = map XFin rs -> (Z.of_nat (length rs) < 2 ^ 64)%Z ->
    always (fun r => pexact (fst r) rs) (exec PD (pt_new td_new) ops).
  Proof.
    intros Hok E Hn.
    assert (forall ops s pre, Forall xok ops -> pexact s pre -> forall rs, items_of ops = map XFin rs -> (Z.of_nat (length (pre ++ rs)) < 2 ^ 64)%Z ->
      always (fun r => pexact (fst r) (pre ++ rs)) (exec PD s ops)) as HH.
    { clear ops rs Hok E Hn. intros ops. induction ops as [|o ops IH]; intros s pre Hok Hs rs E Hn.
      - destruct rs; [|discriminate]. rewrite app_nil_r. exact Hs.
      - inversion Hok as [|? ? Ho Hok']; subst. cbn [exec].
        assert (exists r1 r2, rs = r1 ++ r2 /\ items_of [o] = map XFin r1 /\ items_of ops = map XFin r2) as (r1 & r2 & -> & E1 & E2).
        { rewrite items_of_cons in E. symmetry in E. apply map_eq_app in E as (r1 & r2 & -> & A & B). exists r1, r2. auto. }
        assert (always (fun r => pexact (fst r) (pre ++ r1)) (step PD s o)) as HS.
        { destruct o as [x|l|v|q]; cbn [step items_of xok] in *.
          - destruct r1 as [|r [|? ?]]; try discriminate. injection E1 as ->. destruct (add_pexact [r] Hs) as (s' & E' & H').
            cbn [d_add par_t_digest]. unfold pt_add. cbn [map] in E'. now rewrite E'.
          - rewrite app_nil_r in E1. subst l. destruct (add_pexact r1 Hs) as (s' & E' & H').
            cbn [d_add_buffer par_t_digest]. now rewrite E'.
          - destruct r1; [|discriminate]. rewrite app_nil_r. cbn [d_est_q par_t_digest]. destruct (flush_any Hs) as (s' & -> & B & H'). cbn [bind].
            destruct (d_est_q_returns H' Ho) as [a ->]. cbn [bind always fst]. now apply flushed.
          - destruct r1; [|discriminate]. rewrite app_nil_r. destruct Ho as (r & -> & Hr). cbn [d_est_v par_t_digest].
            destruct (flush_any Hs) as (s' & -> & B & H'). cbn [bind].
            destruct (@d_est_v_returns (pt_digest s') pre r H' Hr) as [a ->]; [rewrite app_length in Hn; lia|]. cbn [bind always fst]. now apply flushed. }
        eapply always_bind; [exact HS|]. intros [s' a] Hs'. cbn [fst] in Hs'. rewrite app_assoc in Hn.
        eapply always_bind; [apply (IH s' (pre ++ r1) Hok' Hs' r2 E2 Hn)|]. intros [s'' b] H''. cbn [always fst] in *. rewrite app_assoc. exact H''. }
    apply (HH ops (pt_new td_new) [] Hok) with (rs := rs); auto. exists [], []. repeat split; auto. left. auto.
  Qed.

  (** ** C29, exact arithmetic: always an answer, and the right count *)
  Theorem pt_exact_count ops rs : Forall xok ops -> items_of ops = map XFin rs -> (Z.of_nat (length rs) < 2 ^ 64)%Z ->
    always (fun r => d_count PD (fst r) = Ret (Z.of_nat (length rs)) /\
      exists s' l, flush (fst r) = Ret s' /\ pt_buffer s' = [] /\ listed (pt_digest s') l /\ sumR (map snd l) = INR (length rs) /\
        sumR (map (fun p => fst p * snd p) l) = sumR rs /\ StronglySorted (fun a b => fst a <= fst b) l) (exec PD (pt_new td_new) ops).
  Proof.
    intros Hok E Hn. eapply always_mono; [apply (@pt_exec_exact ops rs Hok E Hn)|]. intros [s a] HP. cbn [fst] in *. split.
    - destruct HP as (pre & b & -> & Hd & Eb). rewrite app_length in Hn. cbn [d_count par_t_digest]. rewrite (@d_count_is (pt_digest s) pre Hd) by lia. cbn [bind].
      rewrite Eb, map_length, app_length. f_equal. lia.
    - destruct (flush_any HP) as (s' & E' & B & Hd). destruct Hd as [(-> & Hc)|(_ & cs & lo & hi & I)].
      + exists s', []. repeat split; auto; try constructor.
      + exists s', cs. split; auto. split; auto. split; [exact (di_cs I)|]. split; [exact (di_wt I)|]. split; [exact (di_sum I)|exact (di_sorted I)].
  Qed.

  (** ** C30, what holds: the answers at 0 and 1 enclose what was buffered and stay within the data *)
  Theorem pt_exact_ends ops rs : Forall xok ops -> items_of ops = map XFin rs -> rs <> [] -> (Z.of_nat (length rs) < 2 ^ 64)%Z ->
    always (fun r => exists lo hi s', d_est_v PD (fst r) f0 = Ret (s', XFin lo) /\ d_est_v PD (fst r) f1 = Ret (s', XFin hi) /\
        (exists x y, In x rs /\ In y rs /\ x <= lo /\ hi <= y) /\
        (forall x, In (XFin x) (pt_buffer (fst r)) -> lo <= x <= hi) /\
        (t_centroids (pt_digest (fst r)) = [] -> leastR rs lo /\ mostR rs hi)) (exec PD (pt_new td_new) ops).
  Proof.
    intros Hok E Hne Hn. eapply always_mono; [apply (@pt_exec_exact ops rs Hok E Hn)|]. intros [s a] (pre & b & -> & Hd & Eb). cbn [fst] in *.
    destruct b as [|x0 b].
    - rewrite app_nil_r in *. destruct Hd as [(-> & _)|(_ & cs & lo & hi & I)]; [congruence|]. destruct (d_ends I) as [D0 D1].
      exists lo, hi, s. cbn [d_est_v par_t_digest]. unfold pt_flush. rewrite Eb. cbn [map bind]. rewrite D0, D1. cbn [bind]. split; [reflexivity|]. split; [reflexivity|].
      split; [|split; [intros x []|]].
      + destruct (di_lo I) as (x & X1 & X2), (di_hi I) as (y & Y1 & Y2). exists x, y. auto.
      + rewrite (di_cs I). intros E0. apply map_eq_nil in E0. destruct (di_ne I E0).
    - destruct (@flush_exact s pre (x0 :: b) Hd Eb) as (s' & cs & lo & hi & Ef & B & I & R1 & R2); [discriminate|]. destruct (d_ends I) as [D0 D1].
      exists lo, hi, s'. cbn [d_est_v par_t_digest]. rewrite Ef. cbn [bind]. rewrite D0, D1. cbn [bind]. split; [reflexivity|]. split; [reflexivity|].
      split; [|split].
      + destruct (di_lo I) as (x & X1 & X2), (di_hi I) as (y & Y1 & Y2). exists x, y. auto.
      + intros x Hx. rewrite Eb in Hx. apply in_map_iff in Hx as (y & [= ->] & Hy). auto.
      + intros Ec. destruct Hd as [(-> & _)|(_ & cs0 & lo0 & hi0 & I0)]; [cbn [app]; now apply R2|].
        rewrite (di_cs I0) in Ec. apply map_eq_nil in Ec. destruct (di_ne I0 Ec).
  Qed.
End Exact.
