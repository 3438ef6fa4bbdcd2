(** Accuracy of the quantile query of a t-digest built by one [add_buffer], in exact arithmetic: the centroids are averages of
    consecutive runs of the sorted items, so the estimate is off by at most the runs around the queried value. *)
From Coq Require Import List Arith ZArith Lia Bool Permutation Sorted Reals Lra.
From Flocq Require Import Core.
From Verif Require Import Base Floats XReal Digest TDigest Spec FloatFacts History TDigestProofs TDigestProofs2 TDigestExact TDigestExactQ TDigestExactV TDigestHist TDigestTop ScaleFunctions ScaleProofs TDigestScale.
Set Implicit Arguments.
Local Open Scope R_scope.

(** numbers of items below, and at most, [v] *)
Definition below (v : R) (l : list R) : R := INR (length (filter (fun x => if Rlt_dec x v then true else false) l)).
Definition upto (v : R) (l : list R) : R := INR (length (filter (fun x => if Rle_dec x v then true else false) l)).
Notation size l := (INR (length l)).

Lemma below_app v a b : below v (a ++ b) = below v a + below v b.
Proof. unfold below. now rewrite filter_app, app_length, plus_INR. Qed.
Lemma upto_app v a b : upto v (a ++ b) = upto v a + upto v b.
Proof. unfold upto. now rewrite filter_app, app_length, plus_INR. Qed.
Lemma size_app {A} (a b : list A) : size (a ++ b) = size a + size b.
Proof. now rewrite app_length, plus_INR. Qed.
Lemma filter_le {A} f (l : list A) : (length (filter f l) <= length l)%nat.
Proof. induction l as [|x l IH]; cbn; [lia|]. destruct (f x); cbn; lia. Qed.
Lemma below_le v l : 0 <= below v l <= size l.
Proof. split; [apply pos_INR|]. apply le_INR, filter_le. Qed.
Lemma upto_le v l : 0 <= upto v l <= size l.
Proof. split; [apply pos_INR|]. apply le_INR, filter_le. Qed.
Lemma below_upto v l : below v l <= upto v l.
Proof.
  apply le_INR. induction l as [|x l IH]; cbn [filter]; [lia|].
  destruct (Rlt_dec x v), (Rle_dec x v); cbn [length]; try lia. lra.
Qed.
Lemma below_none v l : (forall x, In x l -> v <= x) -> below v l = 0.
Proof.
  intros H. unfold below. induction l as [|x l IH]; cbn [filter]; [reflexivity|].
  destruct (Rlt_dec x v) as [E|E]; [pose proof (H x (or_introl eq_refl)); lra|]. apply IH. intros y Hy. apply H. now right.
Qed.
Lemma below_all v l : (forall x, In x l -> x < v) -> below v l = size l.
Proof.
  intros H. unfold below. f_equal. induction l as [|x l IH]; cbn [filter length]; [reflexivity|].
  destruct (Rlt_dec x v) as [E|E]; [|pose proof (H x (or_introl eq_refl)); lra]. cbn [length]. f_equal. apply IH. intros y Hy. apply H. now right.
Qed.
Lemma upto_all v l : (forall x, In x l -> x <= v) -> upto v l = size l.
Proof.
  intros H. unfold upto. f_equal. induction l as [|x l IH]; cbn [filter length]; [reflexivity|].
  destruct (Rle_dec x v) as [E|E]; [|pose proof (H x (or_introl eq_refl)); lra]. cbn [length]. f_equal. apply IH. intros y Hy. apply H. now right.
Qed.
Lemma below_perm v l l' : Permutation l l' -> below v l = below v l'.
Proof. intros H. unfold below. f_equal. apply Permutation_length. now apply filter_perm. Qed.
Lemma upto_perm v l l' : Permutation l l' -> upto v l = upto v l'.
Proof. intros H. unfold upto. f_equal. apply Permutation_length. now apply filter_perm. Qed.

(** * Averages *)
Definition avg (g : list R) : R := sumR g / size g.
Definition gcen (g : list R) : rcen := (avg g, size g).
Lemma gcen_ravg g : ravg (map ucen g) = gcen g.
Proof. unfold ravg, gcen, avg. destruct (ucen_sums g) as [-> ->]. reflexivity. Qed.
Lemma size_pos {A} (g : list A) : g <> [] -> 1 <= size g.
Proof. destruct g as [|x g]; [congruence|]. intros _. cbn [length]. rewrite S_INR. pose proof (pos_INR (length g)). lra. Qed.
Lemma gcen_heavy g : g <> [] -> heavy (gcen g).
Proof.
  intros H. exists (Z.of_nat (length g)). cbn [gcen snd]. split; [|now rewrite <- INR_IZR_INZ]. destruct g; [congruence|cbn [length]; lia].
Qed.
Lemma sum_le b g : (forall x, In x g -> x <= b) -> sumR g <= b * size g.
Proof.
  induction g as [|x g IH]; intros H; cbn [sumR fold_right length]; [cbn; lra|]. fold (sumR g). rewrite S_INR.
  pose proof (H x (or_introl eq_refl)). specialize (IH (fun y Hy => H y (or_intror Hy))). lra.
Qed.
Lemma sum_ge b g : (forall x, In x g -> b <= x) -> b * size g <= sumR g.
Proof.
  induction g as [|x g IH]; intros H; cbn [sumR fold_right length]; [cbn; lra|]. fold (sumR g). rewrite S_INR.
  pose proof (H x (or_introl eq_refl)). specialize (IH (fun y Hy => H y (or_intror Hy))). lra.
Qed.
Lemma avg_sum g : g <> [] -> avg g * size g = sumR g.
Proof. intros H. apply size_pos in H. unfold avg. field. lra. Qed.
Lemma avg_all_le v g : g <> [] -> (forall x, In x g -> x <= v) -> avg g = v -> forall x, In x g -> x = v.
Proof.
  intros Hne H E. pose proof (avg_sum Hne) as Es. rewrite E in Es. clear E Hne.
  induction g as [|y g IH]; intros x Hx; [destruct Hx|].
  cbn [sumR fold_right length] in Es. fold (sumR g) in Es. rewrite S_INR in Es.
  pose proof (H y (or_introl eq_refl)). pose proof (@sum_le v g (fun z Hz => H z (or_intror Hz))).
  destruct Hx as [<-|Hx]; [lra|]. apply IH; auto; [|lra]. intros z Hz. apply H. now right.
Qed.
Lemma avg_all_ge v g : g <> [] -> (forall x, In x g -> v <= x) -> avg g = v -> forall x, In x g -> x = v.
Proof.
  intros Hne H E. pose proof (avg_sum Hne) as Es. rewrite E in Es. clear E Hne.
  induction g as [|y g IH]; intros x Hx; [destruct Hx|].
  cbn [sumR fold_right length] in Es. fold (sumR g) in Es. rewrite S_INR in Es.
  pose proof (H y (or_introl eq_refl)). pose proof (@sum_ge v g (fun z Hz => H z (or_intror Hz))).
  destruct Hx as [<-|Hx]; [lra|]. apply IH; auto; [|lra]. intros z Hz. apply H. now right.
Qed.
Lemma avg_above g : g <> [] -> exists x, In x g /\ avg g <= x.
Proof.
  intros H. destruct (Forall_Exists_dec (fun x => x < avg g) (fun x => Rlt_dec x (avg g)) g) as [Ha|He].
  - exfalso. rewrite Forall_forall in Ha.
    assert (forall x, In x g -> x = avg g) as E by (apply avg_all_le; auto; intros x Hx; apply Ha in Hx; lra).
    destruct g as [|x g]; [congruence|]. specialize (Ha x (or_introl eq_refl)). specialize (E x (or_introl eq_refl)). lra.
  - apply Exists_exists in He. destruct He as (x & Hx & E). exists x. split; [exact Hx|lra].
Qed.
Lemma avg_below g : g <> [] -> exists x, In x g /\ x <= avg g.
Proof.
  intros H. destruct (Forall_Exists_dec (fun x => avg g < x) (fun x => Rlt_dec (avg g) x) g) as [Ha|He].
  - exfalso. rewrite Forall_forall in Ha.
    assert (forall x, In x g -> x = avg g) as E by (apply avg_all_ge; auto; intros x Hx; apply Ha in Hx; lra).
    destruct g as [|x g]; [congruence|]. specialize (Ha x (or_introl eq_refl)). specialize (E x (or_introl eq_refl)). lra.
  - apply Exists_exists in He. destruct He as (x & Hx & E). exists x. split; [exact Hx|lra].
Qed.

(** * Groups of sorted items *)
Definition grouped (gs : list (list R)) : Prop := Forall (fun g => g <> []) gs /\ StronglySorted Rle (concat gs).
Lemma sorted_split a b : StronglySorted Rle (a ++ b) -> StronglySorted Rle b /\ forall x y, In x a -> In y b -> x <= y.
Proof.
  induction a as [|z a IH]; cbn [app]; intros H; [split; [exact H|intros x y []]|].
  apply StronglySorted_inv in H as [H Hz]. destruct (IH H) as [Hb Hab]. split; [exact Hb|].
  intros x y [->|Hx] Hy; [|auto]. rewrite Forall_forall in Hz. apply Hz, in_or_app. now right.
Qed.
Lemma grouped_cons g gs : grouped (g :: gs) -> g <> [] /\ grouped gs /\ forall x y, In x g -> In y (concat gs) -> x <= y.
Proof.
  intros [H1 H2]. inversion H1; subst. cbn [concat] in H2. destruct (sorted_split _ _ H2) as [A B]. repeat split; auto.
Qed.
Lemma grouped_sorted gs : grouped gs -> rsorted (map gcen gs).
Proof.
  induction gs as [|g gs IH]; intros H; [constructor|]. destruct (grouped_cons H) as (Hne & Hgs & Ho). cbn [map]. constructor; [exact (IH Hgs)|].
  apply Forall_map, Forall_forall. intros d Hd. cbn [gcen fst]. destruct (avg_above Hne) as (x & Hx & E).
  assert (d <> []) as Hdne by (destruct Hgs as [Hn _]; rewrite Forall_forall in Hn; auto).
  destruct (avg_below Hdne) as (y & Hy & E'). specialize (Ho x y Hx). assert (In y (concat gs)) as Hin by (apply in_concat; eauto).
  specialize (Ho Hin). lra.
Qed.
(** everything after a group is at least its average; everything before at most *)
Lemma after_avg g gs y : grouped (g :: gs) -> In y (concat gs) -> avg g <= y.
Proof.
  intros H Hy. destruct (grouped_cons H) as (Hne & _ & Ho). destruct (avg_above Hne) as (x & Hx & E). specialize (Ho x y Hx Hy). lra.
Qed.
Lemma before_avg g d gs x : grouped (g :: d :: gs) -> In x g -> x <= avg d.
Proof.
  intros H Hx. destruct (grouped_cons H) as (_ & Hd & Ho). destruct (grouped_cons Hd) as (Hne & _ & _).
  destruct (avg_below Hne) as (y & Hy & E). specialize (Ho x y Hx). cbn [concat] in Ho. specialize (Ho (in_or_app _ _ _ (or_introl Hy))). lra.
Qed.
Lemma run_upto v gs : grouped gs -> (forall x, In x (concat gs) -> v <= x) -> runW v (map gcen gs) <= upto v (concat gs).
Proof.
  induction gs as [|g gs IH]; intros H Hv; cbn [map runW concat]; [apply (upto_le v [])|].
  destruct (grouped_cons H) as (Hne & Hgs & _). rewrite upto_app.
  pose proof (upto_le v g). pose proof (upto_le v (concat gs)). cbn [gcen fst snd].
  destruct (Req_EM_T (avg g) v) as [E|E]; [|lra].
  assert (forall x, In x g -> x = v) as Eg by (apply avg_all_ge; auto; intros x Hx; apply Hv; cbn [concat]; apply in_or_app; now left).
  rewrite (@upto_all v g); [|intros x Hx; rewrite (Eg x Hx); lra].
  assert (runW v (map gcen gs) <= upto v (concat gs)); [|lra]. apply IH; auto. intros x Hx. apply Hv. cbn [concat]. apply in_or_app. now right.
Qed.

(** * The estimate [e] against the truth, [P] items having been passed before [gs] *)
Definition near (v : R) (gs : list (list R)) (P e : R) : Prop :=
  (P + below v (concat gs) <= e <= P + upto v (concat gs)) \/
  exists pre seg post, gs = pre ++ seg ++ post /\ (length seg <= 2)%nat /\
    P + size (concat pre) <= e <= P + size (concat pre) + size (concat seg) /\
    size (concat pre) <= upto v (concat gs) /\ below v (concat gs) <= size (concat pre) + size (concat seg) /\
    forall W, (forall g, In g seg -> size g <= W) ->
      P + below v (concat gs) - 3 / 2 * W <= e <= P + upto v (concat gs) + 3 / 2 * W.

Lemma near_one v g gs P e : P <= e <= P + size g -> below v (concat (g :: gs)) <= size g -> near v (g :: gs) P e.
Proof.
  intros He Hb. right. exists [], [g], gs. cbn [app concat length]. rewrite app_nil_r. cbn [INR]. cbn [concat] in Hb.
  pose proof (upto_le v (g ++ concat gs)). pose proof (pos_INR (length g)).
  repeat split; auto; try lra; try lia; intros; specialize (H1 g (or_introl eq_refl)); lra.
Qed.
Lemma near_cons v c gs P e : near v gs (P + size c) e -> (forall x, In x c -> x <= v) -> near v (c :: gs) P e.
Proof.
  intros H Hc. assert (upto v (concat (c :: gs)) = size c + upto v (concat gs)) as Eu.
  { cbn [concat]. rewrite upto_app, (@upto_all v c) by exact Hc. reflexivity. }
  assert (below v (concat (c :: gs)) <= size c + below v (concat gs)) as Eb.
  { cbn [concat]. rewrite below_app. pose proof (below_le v c). lra. }
  destruct H as [H|(pre & seg & post & -> & Hs & He & Hu & Hb & HW)].
  - left. lra.
  - right. exists (c :: pre), seg, post. split; [reflexivity|]. split; [exact Hs|]. cbn [concat] in *. rewrite size_app. rewrite Eu.
    split; [lra|]. split; [lra|]. split; [lra|]. intros W HW'. specialize (HW W HW'). lra.
Qed.

Lemma lq_near v T : forall gs P, gs <> [] -> grouped gs -> P + size (concat gs) = T ->
  (forall c, head (map gcen gs) = Some c -> fst c <= v) -> v <= lastm (map gcen gs) -> near v gs P (lq v T P (map gcen gs)).
Proof.
  induction gs as [|c gs IH]; intros P Hne Hg HT Hh Hl; [congruence|]. destruct (grouped_cons Hg) as (Hc & Hgs & Ho).
  specialize (Hh (gcen c) eq_refl). cbn [gcen fst] in Hh. pose proof (size_pos Hc) as Wc.
  destruct gs as [|d gs].
  - cbn [map lq gcen snd]. unfold lastm in Hl. cbn [map last_error gcen fst] in Hl. cbn [concat] in HT. rewrite app_nil_r in HT.
    apply near_one.
    + destruct (Req_EM_T (size c) 1); lra.
    + cbn [concat]. rewrite app_nil_r. apply below_le.
  - destruct (grouped_cons Hgs) as (Hd & Hgs' & Ho'). pose proof (size_pos Hd) as Wd.
    cbn [map]. rewrite lq_cons. change (gcen c :: gcen d :: map gcen gs) with (map gcen (c :: d :: gs)).
    cbn [gcen fst snd].
    assert (avg c <= avg d) as Hcd.
    { destruct (avg_below Hd) as (y & Hy & E). pose proof (@after_avg c (d :: gs) y Hg (in_or_app _ _ _ (or_introl Hy))). lra. }
    destruct (Req_EM_T (avg c) v) as [E|E].
    + (* at a centroid *)
      assert (below v (concat (d :: gs)) = 0) as Bd by (apply below_none; intros y Hy; rewrite <- E; eapply after_avg; eauto).
      destruct (Req_EM_T (avg d) v) as [E'|E'].
      * (* a run of equal items *)
        assert (forall x, In x c -> x = v) as Ec.
        { apply avg_all_le; auto. intros x Hx. rewrite <- E'. eapply before_avg; eauto. }
        assert (forall x, In x (concat (c :: d :: gs)) -> v <= x) as Ha.
        { intros x Hx. cbn [concat] in Hx. apply in_app_or in Hx as [Hx|Hx]; [rewrite (Ec x Hx); lra|].
          rewrite <- E. eapply after_avg; eauto. }
        pose proof (run_upto Hg Ha) as Hr. left. rewrite (below_none _ Ha). pose proof (upto_le v (concat (c :: d :: gs))).
        assert (0 <= runW v (map gcen (c :: d :: gs))) as Hr0.
        { apply runW_bounds. apply Forall_map. destruct Hg as [Hn _]. eapply Forall_impl; [|exact Hn]. intros g. apply gcen_heavy. }
        destruct (Req_EM_T (runW v (map gcen (c :: d :: gs))) 1); lra.
      * assert (runW v (map gcen (c :: d :: gs)) = size c) as ->.
        { cbn [map runW gcen fst snd]. destruct (Req_EM_T (avg c) v); [|congruence]. destruct (Req_EM_T (avg d) v); [congruence|lra]. }
        apply near_one.
        -- destruct (Req_EM_T (size c) 1); lra.
        -- change (concat (c :: d :: gs)) with (c ++ concat (d :: gs)). rewrite below_app, Bd. pose proof (below_le v c). lra.
    + destruct (Rlt_dec v (avg d)) as [Lv|Lv].
      * (* between two centroids *)
        pose proof (@between_range v P (gcen c) (gcen d) (gcen_heavy Hc) (gcen_heavy Hd) Hh Lv) as Hbt. cbn [gcen snd] in Hbt.
        assert (dhalf (gcen d) <= size d / 2) as Hdh by (unfold dhalf; cbn [gcen snd]; destruct (Req_EM_T (size d) 1); lra).
        pose proof (upto_le v (concat (c :: d :: gs))) as Hu.
        assert (below v (concat (c :: d :: gs)) <= size c + size d) as Hb.
        { cbn [concat]. rewrite !below_app. rewrite (@below_none v (concat gs)).
          - pose proof (below_le v c). pose proof (below_le v d). lra.
          - intros y Hy. pose proof (after_avg _ Hgs Hy). lra. }
        right. exists [], [c; d], gs. cbn [app concat length]. rewrite app_nil_r, size_app. cbn [INR]. cbn [concat] in Hb, Hu.
        split; [reflexivity|]. split; [lia|]. split; [lra|]. split; [lra|]. split; [lra|].
        intros W HW. pose proof (HW c (or_introl eq_refl)). pose proof (HW d (or_intror (or_introl eq_refl))). lra.
      * apply near_cons.
        -- apply IH; [congruence|exact Hgs| |intros c' E'; cbn in E'; injection E' as <-; cbn; lra|].
           ++ rewrite <- HT. change (concat (c :: d :: gs)) with (c ++ concat (d :: gs)). rewrite size_app. lra.
           ++ exact Hl.
        -- intros x Hx. pose proof (before_avg _ Hg Hx). lra.
Qed.

Lemma last_group {A} (gs : list A) : gs <> [] -> exists pre g, gs = pre ++ [g].
Proof. intros H. destruct (exists_last H) as (pre & g & E). eauto. Qed.
Lemma ratio_unit a b x : a <= x <= b -> a < b -> 0 <= (x - a) / (b - a) <= 1.
Proof.
  intros H Hab. assert (0 < b - a) as Hd by lra. split.
  - apply Rmult_le_pos; [lra|]. apply Rlt_le, Rinv_0_lt_compat. exact Hd.
  - apply Rmult_le_reg_r with (b - a); [exact Hd|]. replace ((x - a) / (b - a) * (b - a)) with (x - a) by (field; lra). lra.
Qed.
Lemma edge_range w t : 1 <= w -> 0 <= t <= 1 -> 0 <= 1 + t * (w / 2 - 1) <= w.
Proof. intros Hw [H0 H1]. nra. Qed.

Section Fresh.
  Variables (cfg : tcfg xr) (cf : R).
  Hypothesis Hcf : tc_cf cfg = XFin cf.
  Hypothesis Hlib : lib_ok cfg.

  Lemma map_groups {A B} (f : A -> B) rs : forall l, concat rs = map f l -> exists gs, rs = map (map f) gs /\ concat gs = l.
  Proof.
    induction rs as [|r rs IH]; intros l E; cbn [concat] in E.
    - exists []. split; [reflexivity|]. destruct l; [reflexivity|discriminate].
    - symmetry in E. apply map_eq_app in E as (l1 & l2 & -> & E1 & E2). destruct (IH l2 (eq_sym E2)) as (gs & -> & <-).
      exists (l1 :: gs). split; [cbn [map]; now rewrite E1|reflexivity].
  Qed.
  Lemma rsorted_ucen l : rsorted (map ucen l) -> StronglySorted Rle l.
  Proof.
    unfold rsorted. induction l as [|x l IH]; intros H; [constructor|]. cbn [map] in H. apply StronglySorted_inv in H as [H1 H2].
    constructor; [auto|]. rewrite Forall_map in H2. exact H2.
  Qed.

  (** the centroids of one batch *)
  Lemma fresh_groups l : l <> [] -> exists s' gs lo hi, td_add_buffer cfg td_new (map XFin l) = Ret s' /\
    Permutation (concat gs) l /\ grouped gs /\ tinv s' l (map gcen gs) lo hi /\
    greedy (stepped (tc_scale cfg) (tc_inv cfg) cf (size l)) (size l) 0 (map (map ucen) gs).
  Proof.
    intros Hl. assert (texact td_new []) as Hnew by (left; repeat split; reflexivity).
    destruct (@merge_groups cfg cf Hcf Hlib td_new [] l Hnew Hl) as (s' & old & rs & A1 & A2 & A3 & A4 & A5 & A6 & A7 & A8 & A9).
    assert (old = []) as -> by (unfold listed in A2; cbn in A2; destruct old; [reflexivity|discriminate]). rewrite app_nil_r in A3.
    assert (exists l2, concat rs = map ucen l2 /\ Permutation l2 l) as (l2 & E2 & P2).
    { apply Permutation_map_inv in A3. destruct A3 as (l2 & E & P). exists l2. split; [exact E|now apply Permutation_sym]. }
    destruct (@map_groups _ _ ucen rs l2 E2) as (gs & -> & <-).
    assert (grouped gs) as Hg.
    { split; [|apply rsorted_ucen; rewrite concat_map; exact A4]. rewrite Forall_map in A5. eapply Forall_impl; [|exact A5].
      cbn beta. intros g H ->. now apply H. }
    assert (map ravg (map (map ucen) gs) = map gcen gs) as Eg.
    { rewrite map_map. apply map_ext. intros g. apply gcen_ravg. }
    destruct (@add_buffer_exact cfg Hlib td_new [] l Hnew) as (s2 & B1 & B2). rewrite A1 in B1. injection B1 as <-. cbn [app] in B2.
    destruct B2 as [(E & _)|(_ & cs & lo & hi & HI)]; [congruence|].
    assert (cs = map gcen gs) as -> by (apply emb_inj; rewrite <- (ti_cs HI); unfold listed in A6; rewrite A6, Eg; reflexivity).
    exists s', gs, lo, hi. split; [exact A1|]. split; [exact P2|]. split; [exact Hg|]. split; [exact HI|exact A9].
  Qed.

  Lemma rq_near l s' gs lo hi v : Permutation (concat gs) l -> grouped gs -> tinv s' l (map gcen gs) lo hi ->
    near v gs 0 (rq (map gcen gs) lo hi v).
  Proof.
    intros HP Hg HI. assert (Wt (map gcen gs) = size (concat gs)) as EW.
    { rewrite (ti_wt HI). now rewrite (Permutation_length HP). }
    assert (forall x, In x (concat gs) -> lo <= x <= hi) as Hr.
    { intros x Hx. apply (Permutation_in _ HP) in Hx. split; [now apply (ti_lo HI)|now apply (ti_hi HI)]. }
    assert (gs <> []) as Hne by (intros ->; now apply (ti_ne HI)).
    unfold rq. destruct (Rlt_dec v lo) as [L1|L1].
    { left. rewrite (@below_none v); [|intros x Hx; specialize (Hr x Hx); lra]. pose proof (upto_le v (concat gs)). lra. }
    destruct (Rlt_dec hi v) as [L2|L2].
    { left. rewrite EW, (@below_all v); [|intros x Hx; specialize (Hr x Hx); lra].
      rewrite (@upto_all v); [lra|]. intros x Hx; specialize (Hr x Hx); lra. }
    destruct gs as [|c [|d gs]]; [congruence| |].
    { cbn [map]. destruct (grouped_cons Hg) as (Hc & _ & _). pose proof (size_pos Hc). cbn [map] in EW. rewrite EW.
      cbn [concat]. rewrite app_nil_r. apply near_one; [lra|]. cbn [concat]. rewrite app_nil_r. apply below_le. }
    destruct (grouped_cons Hg) as (Hc & Hgs & _). pose proof (size_pos Hc) as Wc.
    cbn [map headc]. cbn [gcen fst snd]. destruct (Rlt_dec v (avg c)) as [L3|L3].
    { apply near_one.
      - destruct (Req_EM_T v lo); [lra|].
        assert (0 <= (v - lo) / (avg c - lo) <= 1) as Ht by (apply ratio_unit; lra).
        pose proof (edge_range Wc Ht). lra.
      - change (concat (c :: d :: gs)) with (c ++ concat (d :: gs)). rewrite below_app.
        rewrite (@below_none v (concat (d :: gs))); [pose proof (below_le v c); lra|].
        intros y Hy. pose proof (after_avg _ Hg Hy). lra. }
    change (gcen c :: gcen d :: map gcen gs) with (map gcen (c :: d :: gs)).
    destruct (last_group Hne) as (pre & g & E). rewrite E in *.
    assert (lastc (map gcen (pre ++ [g])) = gcen g) as El.
    { unfold lastc. rewrite map_app. cbn [map]. now rewrite last_error_app. }
    rewrite El. cbn [gcen fst snd].
    assert (g <> []) as Hgne by (destruct Hg as [Hn _]; apply Forall_app in Hn as [_ Hn]; now inversion Hn).
    pose proof (size_pos Hgne) as Wg.
    assert (forall x, In x (concat pre) -> x <= avg g) as Hpre.
    { intros x Hx. destruct Hg as [_ Hs]. rewrite concat_app in Hs. destruct (sorted_split _ _ Hs) as [_ Ho].
      destruct (avg_below Hgne) as (y & Hy & Ey). specialize (Ho x y Hx). cbn [concat] in Ho. rewrite app_nil_r in Ho. specialize (Ho Hy). lra. }
    destruct (Rlt_dec (avg g) v) as [L4|L4].
    { rewrite EW. assert (concat (pre ++ [g]) = concat pre ++ g) as Ec by (rewrite concat_app; cbn [concat]; now rewrite app_nil_r).
      rewrite Ec, size_app.
      assert (size (concat pre) <= upto v (concat pre ++ g)) as Hu.
      { rewrite upto_app, (@upto_all v (concat pre)); [pose proof (upto_le v g); lra|]. intros x Hx. specialize (Hpre x Hx). lra. }
      pose proof (below_le v (concat pre ++ g)) as Hb. rewrite size_app in Hb.
      assert (0 <= (if Req_EM_T v hi then 1 / 2 else 1 + (hi - v) / (hi - avg g) * (size g / 2 - 1)) <= size g) as Hx.
      { destruct (Req_EM_T v hi); [lra|]. apply edge_range; [exact Wg|].
        replace ((hi - v) / (hi - avg g)) with (((- v) - (- hi)) / ((- avg g) - (- hi))) by (field; lra). apply ratio_unit; lra. }
      right. exists pre, [g], []. rewrite app_nil_r. cbn [length]. rewrite Ec. cbn [concat]. rewrite app_nil_r.
      split; [reflexivity|]. split; [lia|].
      split; [destruct (Req_EM_T v hi); lra|]. split; [exact Hu|]. split; [lra|].
      intros W HW. specialize (HW g (or_introl eq_refl)). destruct (Req_EM_T v hi); lra. }
    rewrite <- E in *. cbn [map] in *.
    apply (@lq_near v (Wt (map gcen (c :: d :: gs))) (c :: d :: gs) 0); auto.
    - rewrite Rplus_0_l. symmetry. exact EW.
    - intros c' E'. cbn in E'. injection E' as <-. cbn. lra.
    - unfold lastm. rewrite E, map_app. cbn [map]. rewrite last_error_app. cbn. lra.
  Qed.

  (** the value query: [t] = n q *)
  Lemma lv_near t : forall gs P, gs <> [] -> grouped gs -> (forall c, head (map gcen gs) = Some c -> P + snd c / 2 <= t) ->
    forall cw, (forall c, head (map gcen gs) = Some c -> cw = P + snd c / 2) -> t < endw cw (map gcen gs) ->
    near (lv t cw (map gcen gs)) gs P t.
  Proof.
    induction gs as [|c gs IH]; intros P Hne Hg Hh cw Ecw Ht; [congruence|]. destruct (grouped_cons Hg) as (Hc & Hgs & Ho).
    specialize (Hh (gcen c) eq_refl). specialize (Ecw (gcen c) eq_refl). cbn [gcen snd] in Hh, Ecw. pose proof (size_pos Hc) as Wc.
    destruct gs as [|d gs]; [cbn [map endw] in Ht; lra|].
    destruct (grouped_cons Hgs) as (Hd & Hgs' & Ho'). pose proof (size_pos Hd) as Wd.
    assert (avg c <= avg d) as Hcd.
    { destruct (avg_below Hd) as (y & Hy & E). pose proof (@after_avg c (d :: gs) y Hg (in_or_app _ _ _ (or_introl Hy))). lra. }
    cbn [map]. rewrite lv_cons. change (gcen d :: map gcen gs) with (map gcen (d :: gs)).
    destruct (Rlt_dec t (cw + (snd (gcen c) + snd (gcen d)) / 2)) as [L|L].
    - pose proof (@vbet_range t cw (gcen c) (gcen d) Hcd) as Hv. cbn [gcen snd] in L. set (x := vbet t cw (gcen c) (gcen d)) in *.
      cbn [gcen fst] in Hv. pose proof (upto_le x (concat (c :: d :: gs))) as Hu.
      assert (below x (concat (c :: d :: gs)) <= size c + size d) as Hb.
      { cbn [concat]. rewrite !below_app. rewrite (@below_none x (concat gs)).
        - pose proof (below_le x c). pose proof (below_le x d). lra.
        - intros y Hy. pose proof (after_avg _ Hgs Hy). lra. }
      right. exists [], [c; d], gs. cbn [app concat length]. rewrite app_nil_r, size_app. cbn [INR]. cbn [concat] in Hb, Hu.
      split; [reflexivity|]. split; [lia|]. split; [lra|]. split; [lra|]. split; [lra|].
      intros W HW. pose proof (HW c (or_introl eq_refl)). pose proof (HW d (or_intror (or_introl eq_refl))). lra.
    - cbn [gcen snd] in L. set (cw' := cw + (snd (gcen c) + snd (gcen d)) / 2) in *.
      assert (avg d <= lv t cw' (map gcen (d :: gs))) as Hx.
      { destruct (last_group (gs := map gcen (d :: gs))) as (pre & g & E); [discriminate|].
        assert (rsorted (map gcen (d :: gs))) as Hs by (eapply grouped_sorted; eauto).
        pose proof (@lv_range t (map gcen (d :: gs)) Hs cw' (gcen d) g eq_refl) as H. rewrite E, last_error_app in H. rewrite E.
        specialize (H eq_refl). cbn [gcen fst] in H. lra. }
      apply near_cons.
      + apply IH; [congruence|exact Hgs| | |].
        * intros c' E'. cbn in E'. injection E' as <-. cbn [gcen snd]. lra.
        * intros c' E'. cbn in E'. injection E' as <-. subst cw'. cbn [gcen snd]. lra.
        * exact Ht.
      + intros x Hx'. pose proof (before_avg _ Hg Hx'). lra.
  Qed.

  Lemma below_in v l : In v l -> below v l + 1 <= size l /\ 1 <= upto v l.
  Proof.
    intros H. apply in_split in H as (a & b & ->). rewrite below_app, upto_app, size_app.
    assert (below v (v :: b) = below v b) as -> by (unfold below; cbn [filter]; destruct (Rlt_dec v v); [lra|reflexivity]).
    assert (upto v (v :: b) = 1 + upto v b) as ->.
    { unfold upto. cbn [filter]. destruct (Rle_dec v v); [cbn [length]; rewrite S_INR; lra|lra]. }
    cbn [length]. rewrite S_INR. pose proof (below_le v a). pose proof (below_le v b). pose proof (upto_le v a). pose proof (upto_le v b). lra.
  Qed.

  Lemma rv_near l s' gs lo hi t : Permutation (concat gs) l -> grouped gs -> tinv s' l (map gcen gs) lo hi ->
    0 <= t <= size l -> clear_of_last (map gcen gs) t -> near (rv (map gcen gs) lo hi t) gs 0 t.
  Proof.
    intros HP Hg HI Ht Hcl. assert (Wt (map gcen gs) = size (concat gs)) as EW.
    { rewrite (ti_wt HI). now rewrite (Permutation_length HP). }
    assert (size l = size (concat gs)) as El by (now rewrite (Permutation_length HP)).
    assert (forall x, In x (concat gs) -> lo <= x <= hi) as Hr.
    { intros x Hx. apply (Permutation_in _ HP) in Hx. split; [now apply (ti_lo HI)|now apply (ti_hi HI)]. }
    assert (In lo (concat gs) /\ In hi (concat gs)) as [Ilo Ihi].
    { split; eapply Permutation_in; try apply Permutation_sym, HP; [apply (ti_lo HI)|apply (ti_hi HI)]. }
    assert (gs <> []) as Hne by (intros ->; now apply (ti_ne HI)).
    unfold rv. destruct (Rlt_dec t 1) as [L1|L1].
    { left. rewrite (@below_none lo); [|intros x Hx; specialize (Hr x Hx); lra]. pose proof (below_in _ _ Ilo). lra. }
    destruct gs as [|c gs]; [congruence|]. destruct (grouped_cons Hg) as (Hc & Hgs & _). pose proof (size_pos Hc) as Wc.
    cbn [map headc gcen fst snd]. destruct (Rlt_dec t (size c / 2)) as [L2|L2].
    { apply near_one; [lra|].
      assert (avg c >= lo) as Ha.
      { destruct (avg_above Hc) as (x & Hx & E). destruct (avg_below Hc) as (y & Hy & E'). pose proof (Hr y (in_or_app _ _ _ (or_introl Hy))).
        assert (lo * size c <= sumR c) by (apply sum_ge; intros z Hz; apply Hr; cbn [concat]; apply in_or_app; now left).
        rewrite <- (avg_sum Hc) in H0. apply Rle_ge. apply Rmult_le_reg_r with (size c); lra. }
      assert (lo + (t - 1) / (size c / 2 - 1) * (avg c - lo) <= avg c) as Hx.
      { assert (0 <= (t - 1) / (size c / 2 - 1) <= 1) by (apply ratio_unit; lra). nra. }
      set (x := lo + _) in *. change (concat (c :: gs)) with (c ++ concat gs). rewrite below_app.
      rewrite (@below_none x (concat gs)); [pose proof (below_le x c); lra|]. intros y Hy. pose proof (after_avg _ Hg Hy). lra. }
    change (gcen c :: map gcen gs) with (map gcen (c :: gs)). rewrite EW. destruct (Rlt_dec (size (concat (c :: gs)) - 1) t) as [L3|L3].
    { left. pose proof (below_in _ _ Ihi). rewrite (@upto_all hi); [lra|]. intros x Hx; specialize (Hr x Hx); lra. }
    apply lv_near; [congruence|exact Hg| | |].
    - intros c' E'. cbn in E'. injection E' as <-. cbn [gcen snd]. lra.
    - intros c' E'. cbn in E'. injection E' as <-. cbn [gcen snd]. lra.
    - destruct (@last_half s' (map gcen (c :: gs)) lo hi HI t Hcl) as [H _]; try lra; [cbn [map headc gcen snd]; lra|].
      pose proof (@endw_val (map gcen (c :: gs)) (size c / 2) (lastc (map gcen (c :: gs))) (gcen c) eq_refl) as He.
      rewrite He by (apply cs_last; discriminate). cbn [gcen snd]. lra.
  Qed.

  Theorem fresh_accuracy l : l <> [] -> exists s' gs, td_add_buffer cfg td_new (map XFin l) = Ret s' /\
    Permutation (concat gs) l /\ grouped gs /\ listed s' (map gcen gs) /\
    greedy (stepped (tc_scale cfg) (tc_inv cfg) cf (size l)) (size l) 0 (map (map ucen) gs) /\
    (forall v, exists e, td_est_q s' (XFin v) = Ret (XFin (e / size l)) /\ near v gs 0 e) /\
    (forall q, 0 <= q <= 1 -> size l < IZR (2 ^ 64) -> clear_of_last (map gcen gs) (size l * q) ->
       exists x, td_est_v s' (XFin q) = Ret (XFin x) /\ near x gs 0 (size l * q)).
  Proof.
    intros Hl. destruct (fresh_groups Hl) as (s' & gs & lo & hi & A1 & A2 & A3 & A4 & A5). exists s', gs.
    split; [exact A1|]. split; [exact A2|]. split; [exact A3|]. split; [exact (ti_cs A4)|]. split; [exact A5|]. split.
    - intros v. exists (rq (map gcen gs) lo hi v). split; [|eapply rq_near; eauto].
      rewrite (est_q_value A4), (ti_wt A4). reflexivity.
    - intros q Hq Hn Hc. exists (rv (map gcen gs) lo hi (size l * q)). pose proof (size_pos Hl) as Hs. split.
      + rewrite <- (ti_wt A4) in *. apply (est_v_value A4); auto.
      + eapply rv_near; eauto. nra.
  Qed.
End Fresh.
