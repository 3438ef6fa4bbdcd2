(** RCSketch as an accurate digest in exact arithmetic, so that the wrappers over it are accurate too. *)
From Coq Require Import List Arith ZArith NArith Lia Bool Reals Lra.
From Verif Require Import Base Floats XReal Digest Spec FloatFacts History LinearProofs WrapProofs MultiSymProofs.
From Verif Require Import ParallelProofs TDigestExact TDigestHist TDigestAcc TDigestAcc2 TDigestDrift.
From Verif Require Import TDigest RCSketch RCProofs RCHist RCRank RCExpect RCTop RCQuery RCObs RCObs2 RCRelTop RCValue RCSym Accurate AccuratePar AccurateTop.
Set Implicit Arguments.
Set Universe Polymorphism.
Unset Universe Minimization ToSet.
Local Open Scope R_scope.

Section RC.
  Variable B : Z.
  Hypothesis HB : (4096 <= B)%Z.
  Local Instance FLr : FloatLaws xr := xr_laws HB.
  Variables (lg : xr -> xr) (n k h : nat).
  Hypothesis Hp : @rc_params xr _ FLr lg n k.
  Hypothesis Hu : (N.of_nat (n / k) <= u32_max)%N.
  Hypothesis He : Nat.even k = true.
  Hypothesis Hi : (Z.of_nat n <= B)%Z.
  Hypothesis Hh : (n < spec_size n k * 2 ^ h)%nat.
  Notation D := (@rc_digest xr _).

  Definition rc_error (c q N : nat) : R := INR (h * N) / INR k.

  Definition rc_inv (s : rc xr) (its : list xr) : Prop := @reached xr _ n k s its /\ no_nan its /\ (length its <= n)%nat.
  Definition rc_fine (its : list xr) (o : op xr) : Prop := fine_op o /\ (is_query o = true -> its <> []) /\ (length its + length (items_of [o]) <= n)%nat.

  Lemma fin_nn (l : list xr) : Forall xfinite l -> no_nan l.
  Proof. intros H. eapply Forall_impl; [|exact H]. intros x [r ->]. reflexivity. Qed.

  Lemma rc_step s its o : rc_inv s its -> rc_fine its o -> always (fun r => rc_inv (fst r) (its ++ items_of [o])) (step D s o).
  Proof using Hp Hu He Hi Hh.
    intros (HR & Hn & Hl) (Ho & Hq & Hlen). assert (1 <= k)%nat as Hk by apply Hp.
    destruct o as [x|l|v|q]; cbn [step d_add d_add_buffer rc_digest items_of app is_query] in *.
    - eapply always_bind; [apply (@reached_step xr _ FLr n k s its (RAdd x)); auto; repeat constructor; destruct Ho as [r ->]; reflexivity|].
      intros s' Hs'. cbn [always fst]. split; [exact Hs'|]. split; [|rewrite app_length; exact Hlen]. apply Forall_app. split; [exact Hn|]. constructor; [|constructor]. destruct Ho as [r ->]. reflexivity.
    - rewrite app_nil_r in *. eapply always_bind; [apply (@reached_step xr _ FLr n k s its (RBuf l)); auto; apply fin_nn, Ho|].
      intros s' Hs'. cbn [always fst]. split; [exact Hs'|]. split; [|rewrite app_length; exact Hlen]. apply Forall_app. split; [exact Hn|]. apply fin_nn, Ho.
    - pose proof (@reached_good xr _ FLr lg n k Hp Hu He s its HR Hn Hl) as G. cbn [d_est_q rc_digest].
      destruct (@good_quantile xr _ FLr lg n k Hp Hu He Hi s its v G (Hq eq_refl) Hl) as (a & r & E & _). rewrite E. cbn [bind always fst]. rewrite app_nil_r. now split.
    - pose proof (@reached_good xr _ FLr lg n k Hp Hu He s its HR Hn Hl) as G. cbn [d_est_v rc_digest].
      destruct (@good_value xr _ FLr lg n k Hp Hu He Hi s its q G (Hq eq_refl) Hl) as (x & E & _). rewrite E. cbn [bind always fst]. rewrite app_nil_r. now split.
  Qed.

  Lemma fine_hist ops : forall its, Forall fine_op ops -> Forall (fun p => fst p <> []) (queries_of its ops) -> (length its + length (items_of ops) <= n)%nat -> ok_hist rc_fine its ops.
  Proof using n.
    clear Hp Hu He Hi Hh. induction ops as [|o ops IH]; intros its H1 H2 H3; [exact I|]. inversion H1 as [|? ? Ho Hr]; subst. cbn [ok_hist].
    rewrite items_of_cons, app_length in H3. split.
    - split; [exact Ho|]. split; [|lia]. destruct o; cbn in *; intros E; try discriminate; inversion H2; subst; assumption.
    - apply IH; auto; [|rewrite app_length; lia]. destruct o; cbn [queries_of items_of app] in *; rewrite ?app_nil_r; auto; now inversion H2.
  Qed.

  Lemma rc_hist ops : fine ops -> (Z.of_nat (length (items_of ops)) <= Z.of_nat n)%Z -> always (fun r => rc_inv (fst r) (items_of ops)) (exec D (rc_fresh n k) ops).
  Proof using Hp Hu He Hi Hh.
    intros [H1 H2] H3. apply (@exec_always xr D rc_fine rc_inv rc_step ops (rc_fresh n k) []).
    - split; [exact (@reached_nil xr _ n k)|]. split; [constructor|cbn; lia].
    - apply fine_hist; auto. cbn [length]. lia.
  Qed.

  Lemma below_n rs v : INR (n_lt (map XFin rs) (XFin v)) = below v rs.
  Proof. apply lin_below. Qed.

  Theorem rc_rank : rank_accurate D (rc_fresh n k) (Z.of_nat n) rc_error.
  Proof using Hp Hu He Hi Hh.
    split.
    - intros ops Hf HL. eapply always_mono; [apply (rc_hist Hf HL)|auto].
    - intros ops rs v Hf Hits Hne HL. apply ask_quant. rewrite <- (map_length XFin), <- Hits in HL.
      eapply whenever_mono; [apply always_whenever, (rc_hist Hf HL)|]. intros [s al] (HR & Hn & Hl). cbn [fst] in *.
      pose proof (@reached_good xr _ FLr lg n k Hp Hu He _ _ HR Hn Hl) as G.
      assert (items_of ops <> []) as Hne' by (rewrite Hits; destruct rs; [congruence|discriminate]).
      destruct (@good_quantile xr _ FLr lg n k Hp Hu He Hi s _ (XFin v) G Hne' Hl) as (a & r & E & Ea & _ & Er & _).
      cbn [d_est_q rc_digest]. rewrite E. cbn [bind whenever snd]. exists r. split; [exact Ea|].
      assert (length (items_of ops) < spec_size n k * 2 ^ h)%nat as Hh' by lia.
      pose proof (@good_error xr _ FLr lg n k Hp Hu He Hi s _ (XFin v) h G Hh') as GE. apply Raux.Rabs_le_inv in GE.
      rewrite Hits, map_length in GE, Er. change (XFin (INR (lv_rank (rc_levels s) (XFin v)) / INR (length rs)) = XFin r) in Er. injection Er as <-.
      assert (0 < size rs) as Hs by (apply lt_0_INR; destruct rs; [congruence|cbn; lia]).
      unfold TDigestAcc2.within, rc_error in *. replace (INR (length rs) * (INR (lv_rank (rc_levels s) (XFin v)) / INR (length rs))) with (INR (lv_rank (rc_levels s) (XFin v))) by (field; lra).
      pose proof (n_le_lt_eq (map XFin rs) (XFin v)) as Hle. apply (f_equal INR) in Hle. rewrite plus_INR, lin_upto, lin_below in Hle. rewrite lin_upto in GE.
      pose proof (pos_INR (n_eq (map XFin rs) (XFin v))). lra.
  Qed.

  Theorem rc_value : value_accurate D (rc_fresh n k) (Z.of_nat n) rc_error.
  Proof using Hp Hu He Hi Hh.
    intros ops rs q Hf Hits Hne HL Hq. apply ask_val. rewrite <- (map_length XFin), <- Hits in HL.
    eapply whenever_mono; [apply always_whenever, (rc_hist Hf HL)|]. intros [s al] (HR & Hn & Hl). cbn [fst] in *.
    pose proof (@reached_good xr _ FLr lg n k Hp Hu He _ _ HR Hn Hl) as G.
    assert (items_of ops <> []) as Hne' by (rewrite Hits; destruct rs; [congruence|discriminate]).
    assert (length (items_of ops) < spec_size n k * 2 ^ h)%nat as Hh' by lia.
    destruct (@good_cut xr _ FLr lg n k Hp Hu He Hi s (items_of ops) (XFin q) (q * INR (length (items_of ops))) h G Hne' Hn Hl Hh') as (x & E & HIn & HE).
    - cbn. now rewrite INR_IZR_INZ.
    - pose proof (pos_INR (length (items_of ops))). split; nra.
    - cbn [d_est_v rc_digest]. rewrite E. cbn [bind whenever snd]. rewrite Hits in HIn. apply in_map_iff in HIn as (y & <- & Hy). exists y. split; [reflexivity|].
      rewrite Hits, map_length, lin_upto, lin_below in HE. unfold TDigestAcc2.within, rc_error. lra.
  Qed.

  Theorem rc_counted : counted D (rc_fresh n k) (Z.of_nat n).
  Proof using Hp Hu He Hi Hh.
    intros ops Hf HL. eapply whenever_mono; [apply always_whenever, (rc_hist Hf HL)|]. intros [s al] (HR & Hn & Hl). cbn [fst] in *.
    destruct (@reached_good xr _ FLr lg n k Hp Hu He _ _ HR Hn Hl) as ((_ & _ & E & _) & _). cbn [d_count rc_digest]. now rewrite E.
  Qed.
End RC.

(** any digest whose error is proportional to the number of items, inside the wrappers *)
Section Proportional.
  Variables (D : digest xr) (s0 : dst D) (lim : Z) (a : R).
  Hypothesis Ha : 0 <= a.
  Definition share (_ _ m : nat) : R := a * INR m.
  Lemma share_grows : grows share.
  Proof. intros c c' q q' m _ _. apply Rle_refl. Qed.
  Theorem buffered_share c : (1 <= c)%nat -> rank_accurate D s0 lim share -> rank_accurate (buffered_digest D) (buffered_new D s0 c) lim share.
  Proof. intros Hc H. exact (@buffered_rank D s0 c lim share Hc H share_grows). Qed.
  Theorem buffered_share_value c : (1 <= c)%nat -> value_accurate D s0 lim share -> value_accurate (buffered_digest D) (buffered_new D s0 c) lim share.
  Proof. intros Hc H. exact (@buffered_value D s0 c lim share Hc share_grows H). Qed.
  Theorem sym_share : rank_accurate D s0 lim share -> rank_accurate (sym_digest D) (Sym D s0 s0) lim share.
  Proof. intros H. exact (sym_rank H H). Qed.
  Theorem sym_share_value : value_accurate D s0 lim share -> value_accurate (sym_digest D) (Sym D s0 s0) lim share.
  Proof. intros H. exact (sym_value H H). Qed.

  Lemma share_sum ns : sumR (map (share 0 0) ns) = share 0 0 (sum_nat ns).
  Proof.
    unfold share. induction ns as [|m ns IH]; [cbn; lra|]. change (sum_nat (m :: ns)) with (m + sum_nat ns)%nat. rewrite plus_INR, Rmult_plus_distr_l, <- IH. reflexivity.
  Qed.
  Section Par.
    Variable m : nat.
    Hypotheses (Hm : (1 <= m)%nat) (Hm2 : (Z.of_nat m < 2 ^ 53)%Z) (HL : (lim < 2 ^ 53)%Z).
    Hypotheses (HR : rank_accurate D s0 lim share) (HC : counted D s0 lim).
    Variables (sched : nat -> rtree) (ops : list (op xr)) (rs : list R).
    Hypotheses (H1 : filled m ops) (H2 : fine ops) (H3 : items_of ops = map XFin rs) (H4 : (Z.of_nat (length rs) <= lim)%Z).
    Notation ds := (repeat s0 m).
    Let A : ds <> []. Proof using Hm. destruct m; [lia|discriminate]. Qed.
    Let L : length ds = m. Proof. apply repeat_length. Qed.
    Let C : Forall (fun d => rank_accurate D d lim (fun c _ n => (fun _ n => share 0 0 n) c n) /\ counted D d lim) ds.
    Proof using HR HC. apply Forall_forall. intros d Hd. apply repeat_spec in Hd. subst d. split; [exact HR|exact HC]. Qed.
    Let S : forall c ns, length ns = length ds -> Forall (fun n => (1 <= n)%nat) ns -> sumR (map ((fun _ n : nat => share 0 0 n) c) ns) <= (fun _ n : nat => share 0 0 n) c (sum_nat ns).
    Proof. intros c ns _ _. cbv beta. rewrite <- share_sum. apply Rle_refl. Qed.
    Let G : forall c n : nat, 0 <= (fun _ n : nat => share 0 0 n) c n.
    Proof using Ha. intros c n. cbv beta. unfold share. pose proof (pos_INR n). nra. Qed.
    Theorem parallel_share v :
      always (fun r => exists al x, snd r = al ++ [XFin x] /\ TDigestAcc2.within rs (a * size rs) (size rs * x) v)
        (exec (parallel_digest D) (parallel_new D sched ds) (ops ++ [Quant (XFin v)])).
    Proof using Ha Hm Hm2 HL HR HC H1 H2 H3 H4.
      refine (@parallel_rank D lim (fun _ n => share 0 0 n) (fun _ n => share 0 0 n) ds HL A _ C (fun _ _ _ _ => Rle_refl _) G S sched ops rs v _ H2 H3 H4).
      - exact (eq_ind_r (fun k => (Z.of_nat k < 2 ^ 53)%Z) Hm2 L).
      - exact (eq_ind_r (fun k => filled k ops) H1 L).
    Qed.
    Theorem parallel_share_value q : 0 <= q <= 1 ->
      always (fun r => exists al x, snd r = al ++ [XFin x] /\ bracketed rs (a * size rs) q x)
        (exec (parallel_digest D) (parallel_new D sched ds) (ops ++ [Val (XFin q)])).
    Proof using Ha Hm Hm2 HL HR HC H1 H2 H3 H4.
      intros Hq. refine (@parallel_value D lim (fun _ n => share 0 0 n) (fun _ n => share 0 0 n) ds HL A _ C (fun _ _ _ _ => Rle_refl _) G S sched ops rs q _ H2 H3 H4 Hq).
      - exact (eq_ind_r (fun k => (Z.of_nat k < 2 ^ 53)%Z) Hm2 L).
      - exact (eq_ind_r (fun k => filled k ops) H1 L).
    Qed.
  End Par.
End Proportional.
