(** Proofs about the clustering operations of the t-digest. *)
From Coq Require Import List Arith ZArith Lia Bool Permutation Sorted Reals Lra Psatz.
From Flocq Require Import Core.
From Verif Require Import Base Floats XReal Digest TDigest Spec FloatFacts History ParallelProofs TDigestProofs TDigestProofs2 TDigestExact TDigestHist TDigestTop.
Set Implicit Arguments.

(* ------------------------------------------------------------------ *)
(** * Any arithmetic *)
Section Any.
  Context {F : Type} {FO : FloatOps F}.
  Notation cen := (centroid F).
  Variable cfg : tcfg F.

  Lemma nth_cen_lt (cs : list cen) i : i < length cs -> exists c, nth_cen cs i = Ret c /\ nth_error cs i = Some c.
  Proof.
    intros H. destruct (nth_error cs i) as [c|] eqn:E; [|apply nth_error_None in E; lia].
    exists c. unfold nth_cen. now rewrite E.
  Qed.

  Lemma shift_left_spec (cs : list cen) t d : forall li, li <= length cs -> exists li', shift_left cs t d li = Ret li' /\ li' <= li.
  Proof.
    induction li as [|l IH]; intros H; cbn [shift_left]; [exists 0; auto|].
    destruct (@nth_cen_lt cs l) as (c & -> & _); [lia|]. cbn [bind].
    destruct (feq _ _); [|exists (S l); auto]. destruct IH as (l' & -> & Hl); [lia|]. exists l'. auto.
  Qed.
  Lemma shift_right_spec (cs : list cen) t d : forall fuel ri, ri <= length cs -> length cs - ri <= fuel ->
    exists ri', shift_right fuel cs t d ri = Ret ri' /\ ri <= ri' <= length cs.
  Proof.
    induction fuel as [|fuel IH]; intros ri H Hf; cbn [shift_right]; destruct (Nat.ltb_spec (S ri) (length cs)) as [L|L];
      try (exists ri; auto; fail); [lia|].
    destruct (nth_cen_lt _ L) as (c & -> & _). cbn [bind]. destruct (feq _ _); [|exists ri; auto].
    destruct (IH (S ri)) as (r & -> & Hr); try lia. exists r. split; auto. lia.
  Qed.

  Definition clean (cs : list cen) : Prop := Forall (fun c => fisnan (mean c) = false) cs.
  Lemma clean_existsb cs : clean cs -> existsb (fun c => fisnan (mean c)) cs = false.
  Proof. intros H. induction H as [|c cs Hc H IH]; [reflexivity|]. cbn [existsb]. now rewrite Hc. Qed.

  Hypothesis Hlib : lib_ok cfg.

  Lemma binary_search_ok tick (cs : list cen) x : clean cs -> fisnan x = false ->
    exists i, binary_search cfg tick cs x = Ret i /\ i <= length cs /\ (cs <> [] -> i = tc_search cfg tick (map mean cs) x).
  Proof.
    intros Hc Hx. unfold binary_search. destruct cs as [|c cs]; [exists 0; repeat split; auto; congruence|].
    rewrite Hx, (clean_existsb Hc). cbn [orb]. eexists. split; [reflexivity|]. split; auto.
    rewrite <- (map_length mean). apply (lo_search_len Hlib).
  Qed.

  Lemma find_closest_total tick (cs : list cen) x : cs <> [] -> clean cs -> fisnan x = false ->
    exists li ri, find_closest cfg tick cs x = Ret (Some (li, ri)) /\ li < ri <= length cs.
  Proof.
    intros Hne Hc Hx. unfold find_closest. destruct (@binary_search_ok tick cs x Hc Hx) as (i & Ei & Hi & _). rewrite Ei.
    destruct cs as [|c0 cs0]; [congruence|]. set (cs := c0 :: cs0) in *. cbn [bind].
    assert (1 <= length cs) as Hlen by (cbn; lia).
    assert (forall d li ri, li < ri <= length cs -> exists li' ri',
      (do l <- shift_left cs x d li; do r <- shift_right (length cs) cs x d ri; Ret (Some (l, r))) = Ret (Some (li', ri')) /\ li' < ri' <= length cs) as HS.
    { intros d li ri Hr. destruct (shift_left_spec cs x d (li := li)) as (li' & -> & Hl); [lia|]. cbn [bind].
      destruct (shift_right_spec cs x d (fuel := length cs) (ri := ri)) as (ri' & -> & Hr'); try lia. cbn [bind].
      exists li', ri'. split; [reflexivity|lia]. }
    destruct (Nat.eqb_spec i 0) as [->|N0].
    - destruct (@nth_cen_lt cs 0) as (c & -> & _); [lia|]. cbn [bind]. apply HS. lia.
    - destruct (Nat.eqb_spec i (length cs)) as [->|N1].
      + destruct (@nth_cen_lt cs (length cs - 1)) as (c & -> & _); [lia|]. cbn [bind]. apply HS. lia.
      + destruct (@nth_cen_lt cs (i - 1)) as (c & -> & _); [lia|]. destruct (@nth_cen_lt cs i) as (c' & -> & _); [lia|].
        cbn [bind]. apply HS. lia.
  Qed.

  Lemma pick_index_total (cs : list cen) x total li ri : li <= ri -> ri <= length cs ->
    exists o, pick_index cfg cs x total li ri = Ret o /\ match o with Some i => li <= i < ri | None => True end.
  Proof.
    intros H1 H2. unfold pick_index.
    assert (forall k l best, li <= l -> l + k <= ri -> (match best with Some i => li <= i < ri | None => True end) ->
      exists o, foldM (fun best i =>
        do c <- nth_cen cs i;
        if flt (fabs (k_size cfg cs (cen_add x c) total)) f1 then
          match best with
          | None => Ret (Some i)
          | Some o => do co <- nth_cen cs o;
            Ret (if fgt (fmul (mean co) (weight co)) (fmul (mean c) (weight c)) then Some i else best)
          end
        else Ret best) best (seq l k) = Ret o /\ match o with Some i => li <= i < ri | None => True end) as HK.
    { induction k as [|k IH]; intros l best Hl Hk Hb; cbn [seq foldM]; [exists best; auto|].
      destruct (@nth_cen_lt cs l) as (c & -> & _); [lia|]. cbn [bind].
      destruct (flt _ _).
      - destruct best as [o|].
        + destruct (@nth_cen_lt cs o) as (co & -> & _); [lia|]. cbn [bind].
          destruct (fgt _ _); apply IH; auto; lia.
        + cbn [bind]. apply IH; auto; lia.
      - cbn [bind]. apply IH; auto; lia. }
    apply HK; auto; lia.
  Qed.

  (** [placed cs x cs']: [x] was merged into one centroid, or inserted *)
  Definition placed (cs : list cen) (x : cen) (cs' : list cen) : Prop :=
    (exists a m b, cs = a ++ m :: b /\ cs' = a ++ cen_add m x :: b) \/ (exists a b, cs = a ++ b /\ cs' = a ++ x :: b).

  Definition after_place (g : F) (s : tdigest F) (total : F) (cs' : list cen) (k : nat) : M (tdigest F * F) :=
    do lim <- to_usize (fmul g (tc_cf cfg));
    let s' := {| t_centroids := cs'; t_min := t_min s; t_max := t_max s; t_tick := k |} in
    if lim <? length cs' then do s'' <- td_add_buffer cfg s' []; Ret (s'', total) else Ret (s', total).

  Lemma split_at {A} (l : list A) i : i < length l -> exists m, nth_error l i = Some m /\ l = firstn i l ++ m :: skipn (S i) l.
  Proof.
    revert l. induction i as [|i IH]; intros [|a l] H; cbn [length] in H; try lia.
    - exists a. auto.
    - destruct (IH l) as (m & E1 & E2); [lia|]. exists m. split; auto. cbn [firstn skipn app]. f_equal. exact E2.
  Qed.

  Lemma cluster_cases g s total x :
    (cluster_one cfg g (s, total) x = Panic /\ ~ (clean (t_centroids s) /\ fisnan (mean x) = false)) \/
    exists cs' k, placed (t_centroids s) x cs' /\
      cluster_one cfg g (s, total) x = after_place g s (fadd total (weight x)) cs' k.
  Proof.
    set (cs := t_centroids s).
    destruct cs as [|c0 cs0] eqn:Ecs.
    - right. exists [x]. eexists. split; [right; exists [], []; auto|].
      unfold cluster_one. fold cs. rewrite Ecs. cbn [find_closest bind binary_search vec_insert length Nat.leb firstn skipn app]. unfold after_place.
      reflexivity.
    - assert (cs <> []) as Hne by congruence. rewrite <- Ecs in *. clear c0 cs0 Ecs.
      destruct (existsb (fun c => fisnan (mean c)) cs) eqn:Hcb.
      { left. split.
        - unfold cluster_one. fold cs. unfold find_closest, binary_search.
          destruct cs as [|c cs']; [congruence|]. rewrite Hcb, orb_true_r. reflexivity.
        - intros [Hc _]. rewrite (clean_existsb Hc) in Hcb. discriminate. }
      destruct (fisnan (mean x)) eqn:Hx.
      { left. split; [|intros [_ ?]; congruence]. unfold cluster_one. fold cs. unfold find_closest, binary_search.
        destruct cs as [|c cs']; [congruence|]. rewrite Hx. reflexivity. }
      right. assert (clean cs) as Hc.
      { clear -Hcb. unfold clean. induction cs as [|c cs IH]; constructor; cbn [existsb] in Hcb; apply orb_false_iff in Hcb as [A B]; auto. }
      unfold cluster_one. fold cs.
      destruct (@find_closest_total (t_tick s) cs (mean x) Hne Hc Hx) as (li & ri & -> & Hr). cbn [bind].
      destruct (@pick_index_total cs x total li ri) as (o & -> & Ho); try lia. cbn [bind].
      destruct o as [i|].
      + destruct (split_at cs (i := i)) as (m & Em & Esp); [lia|]. unfold nth_cen. rewrite Em. cbn [unwrap bind].
        eexists. eexists. split; [left; do 3 eexists; split; [exact Esp|reflexivity]|].
        unfold after_place. rewrite (@set_nth_split _ cs i) by lia. reflexivity.
      + destruct (@binary_search_ok (S (t_tick s)) cs (mean x) Hc Hx) as (i & -> & Hi & _). cbn [bind]. unfold vec_insert.
        destruct (Nat.leb_spec i (length cs)); [|lia]. cbn [bind].
        eexists. eexists. split; [right; do 2 eexists; split; [symmetry; apply firstn_skipn|reflexivity]|]. reflexivity.
  Qed.
End Any.

(* ------------------------------------------------------------------ *)
(** * Integer weights, any arithmetic *)
Section Weights.
  Context {F : Type} {FO : FloatOps F} {FL : FloatLaws F}.
  Notation cen := (centroid F).
  Variable cfg : tcfg F.
  Hypothesis Hlib : lib_ok cfg.

  Lemma wts_app (a b : list cen) za zb : wts a za -> wts b zb -> wts (a ++ b) (za ++ zb).
  Proof. apply Forall2_app. Qed.
  Lemma wts_app_inv (a b : list cen) zs : wts (a ++ b) zs -> exists za zb, zs = za ++ zb /\ wts a za /\ wts b zb.
  Proof. intros H. apply Forall2_app_inv_l in H as (za & zb & A & B & ->). eauto. Qed.

  Lemma sumZ_cons z zs : sumZ (z :: zs) = (z + sumZ zs)%Z. Proof. reflexivity. Qed.
  Lemma placed_wts cs (x : cen) cs' zs z : placed cs x cs' -> wts cs zs -> fval (weight x) = XFin (IZR z) -> (1 <= z)%Z -> (sumZ zs + z <= fint)%Z ->
    exists zs', wts cs' zs' /\ sumZ zs' = (sumZ zs + z)%Z.
  Proof.
    intros HP H Hx Hz Hf. destruct HP as [(a & m & b & -> & ->)|(a & b & -> & ->)].
    - apply wts_app_inv in H as (za & zmb & -> & Ha & Hb). inversion Hb as [|? zm ? zb [Hm Hm1] Hb']; subst.
      exists (za ++ (zm + z)%Z :: zb). split.
      + apply wts_app; auto. constructor; auto. split; [|lia]. cbn [cen_add weight].
        rewrite (fadd_fin Hm Hx), <- plus_IZR. apply frnd_exact, fint_exact.
        pose proof (sumZ_pos (wts_pos Ha)). pose proof (sumZ_pos (wts_pos Hb')). rewrite sumZ_app, sumZ_cons in Hf. lia.
      + rewrite !sumZ_app, !sumZ_cons. lia.
    - apply wts_app_inv in H as (za & zb & -> & Ha & Hb). exists (za ++ z :: zb). split.
      + apply wts_app; auto. constructor; auto.
      + rewrite !sumZ_app, sumZ_cons. lia.
  Qed.

  Definition enc (s : tdigest F) (n : Z) (its : list F) : Prop := ((n <= fint)%Z -> holds s n) /\ covers s its.

  Lemma cluster_one_enc g s total x n z its : enc s n its -> fval (weight x) = XFin (IZR z) -> (1 <= z)%Z ->
    whenever (fun r => enc (fst r) (n + z) its) (cluster_one cfg g (s, total) x).
  Proof.
    intros [Hh Hc] Hx Hz. destruct (cluster_cases Hlib g s total x) as [[-> _]|(cs' & k & HP & ->)]; [exact I|].
    unfold after_place. eapply whenever_bind; [apply whenever_true|]. intros lim _. cbv beta zeta.
    set (s' := {| t_centroids := cs'; t_min := t_min s; t_max := t_max s; t_tick := k |}).
    assert (enc s' (n + z) its) as [Hh' Hc'].
    { split; [|exact Hc]. intros Hn. destruct (Hh ltac:(lia)) as (zs & H1 & <-).
      destruct (placed_wts HP H1 Hx Hz Hn) as (zs' & H2 & H3). exists zs'. auto. }
    destruct (lim <? length cs'); [|split; assumption].
    eapply whenever_bind with (P := fun s'' => enc s'' (n + z) its); [|intros s'' Hs''; exact Hs''].
    unfold td_add_buffer. cbn [map].
    assert (whenever (fun s'' => (n + z <= fint)%Z -> holds s'' (n + z)) (add_centroid_buffer cfg s' [])) as H1.
    { destruct (Z_le_gt_dec (n + z) fint) as [L|L].
      - eapply whenever_mono; [apply (@add_centroid_buffer_weight F FO FL cfg Hlib s' (n + z)%Z [] [] (Hh' L)); [constructor|cbn; lia]|].
        intros a Ha _. cbn [sumZ fold_right] in Ha. now rewrite Z.add_0_r in Ha.
      - eapply whenever_mono; [apply whenever_true|]. intros; lia. }
    assert (whenever (fun s'' => covers s'' its) (add_centroid_buffer cfg s' [])) as H2.
    { eapply whenever_mono; [apply (@add_covers F FO FL cfg Hlib s' its [] [] Hc'); [constructor|intros ? []]|].
      intros a. now rewrite app_nil_r. }
    eapply whenever_mono; [exact (@whenever_and _ _ _ _ H1 H2)|]. intros a [A B]. split; auto.
  Qed.

  Lemma clusters_enc g xs : forall s total zs n its, enc s n its -> wts xs zs ->
    whenever (fun r => enc (fst r) (n + sumZ zs) its) (foldM (cluster_one cfg g) (s, total) xs).
  Proof.
    induction xs as [|x xs IH]; intros s total zs n its He Hw.
    - inversion Hw; subst. cbn [foldM whenever fst sumZ fold_right]. now rewrite Z.add_0_r.
    - inversion Hw as [|? z ? zs' [Hx Hz] Hw']; subst. cbn [foldM].
      eapply whenever_bind; [apply (cluster_one_enc g total x He Hx Hz)|]. intros [s' t'] He'. cbn [fst] in He'.
      cbn [sumZ fold_right]. fold (sumZ zs'). replace (n + (z + sumZ zs'))%Z with (n + z + sumZ zs')%Z by lia. now apply IH.
  Qed.

  Lemma update_limits_covers (s : tdigest F) xs its : covers s its -> clean xs ->
    exists s', update_limits s xs = Ret s' /\ covers s' (its ++ map mean xs) /\ t_centroids s' = t_centroids s /\ t_tick s' = t_tick s.
  Proof.
    intros (C1 & C2 & C3) Hx. unfold update_limits.
    destruct xs as [|x0 xs0].
    - cbn [map min_by_key max_by_key bind]. eexists. split; [reflexivity|]. split; [|auto]. rewrite app_nil_r.
      assert (fisnan fpinf = false) as P1 by (apply fisnan_false; rewrite fpinf_val; discriminate).
      assert (fisnan fninf = false) as P2 by (apply fisnan_false; rewrite fninf_val; discriminate).
      split; [cbn [t_min]; now apply fmin_nn|]. split; [cbn [t_max]; now apply fmax_nn|]. cbn [t_min t_max].
      intros x Hi. destruct (C3 x Hi) as [D1 D2]. split.
      + eapply fle_trans; [|exact D1]. now apply fmin_le_r.
      + eapply fle_trans; [exact D2|]. now apply fmax_ge_r.
    - set (xs := x0 :: xs0) in *. assert (no_nan (map mean xs)) as Hn by (apply Forall_map; exact Hx).
      assert (map mean xs <> []) as Hne by discriminate.
      pose proof (min_by_ok Hne Hn) as Hmin. pose proof (max_by_ok Hne Hn) as Hmax.
      assert (exists m, min_by_key (fun x => x) (map mean xs) = Ret (Some m) /\ is_min (map mean xs) m) as (mn & -> & Hmn).
      { clear -Hmin. assert (forall b (r : M (option F)), (forall k, r <> Flip k) -> always b r -> exists o, r = Ret o /\ b o) as Hr.
        { intros b [o| | |k] H1 H2; try contradiction; eauto. exfalso. now apply (H1 k). }
        apply Hr in Hmin as (o & -> & m & -> & Hm); [eauto|]. intros k. unfold xs. cbn [map min_by_key]. unfold liftM.
        assert (forall l m0, forall k, foldM (fun m x => do c <- cmp_unwrap m x; Ret (match c with Gt => x | _ => m end)) m0 l <> Flip k) as HH.
        { induction l as [|y l IHl]; intros m0 k'; cbn [foldM]; [discriminate|]. unfold cmp_unwrap.
          destruct (fcmp m0 y); cbn [unwrap bind]; [apply IHl|discriminate]. }
        intros E. destruct (foldM _ (mean x0) _) eqn:E2; cbn [bind] in E; try discriminate. exact (HH _ _ _ E2). }
      assert (exists m, max_by_key (fun x => x) (map mean xs) = Ret (Some m) /\ is_max (map mean xs) m) as (mx & -> & Hmx).
      { clear -Hmax. assert (forall b (r : M (option F)), (forall k, r <> Flip k) -> always b r -> exists o, r = Ret o /\ b o) as Hr.
        { intros b [o| | |k] H1 H2; try contradiction; eauto. exfalso. now apply (H1 k). }
        apply Hr in Hmax as (o & -> & m & -> & Hm); [eauto|]. intros k. unfold xs. cbn [map max_by_key]. unfold liftM.
        assert (forall l m0, forall k, foldM (fun m x => do c <- cmp_unwrap m x; Ret (match c with Gt => m | _ => x end)) m0 l <> Flip k) as HH.
        { induction l as [|y l IHl]; intros m0 k'; cbn [foldM]; [discriminate|]. unfold cmp_unwrap.
          destruct (fcmp m0 y); cbn [unwrap bind]; [apply IHl|discriminate]. }
        intros E. destruct (foldM _ (mean x0) _) eqn:E2; cbn [bind] in E; try discriminate. exact (HH _ _ _ E2). }
      cbn [bind]. eexists. split; [reflexivity|]. split; [|auto].
      destruct Hmn as [M1 M2]. destruct Hmx as [N1 N2]. unfold no_nan in Hn. rewrite Forall_forall in Hn.
      split; [cbn [t_min]; apply fmin_nn; auto|]. split; [cbn [t_max]; apply fmax_nn; auto|]. cbn [t_min t_max].
      intros x Hi. apply in_app_or in Hi as [Hi|Hi].
      + destruct (C3 x Hi) as [D1 D2]. split.
        * eapply fle_trans; [|exact D1]. now apply fmin_le_r.
        * eapply fle_trans; [exact D2|]. now apply fmax_ge_r.
      + split.
        * eapply fle_trans; [|exact (M2 x Hi)]. apply fmin_le_l. auto.
        * eapply fle_trans; [exact (N2 x Hi)|]. apply fmax_ge_l. auto.
  Qed.

  Theorem add_cluster_enc s n its xs zs g : enc s n its -> wts xs zs -> clean xs ->
    whenever (fun s' => enc s' (n + sumZ zs) (its ++ map mean xs)) (add_cluster cfg s xs g).
  Proof.
    intros [Hh Hc] Hw Hx. unfold add_cluster. destruct (update_limits_covers Hc Hx) as (s1 & -> & Hc1 & E1 & _). cbn [bind].
    eapply whenever_bind; [apply (@clusters_enc g xs s1 (total_weight s1) zs n (its ++ map mean xs))|]; auto.
    - split; auto. intros Hn. destruct (Hh Hn) as (z & A & B). exists z. now rewrite E1.
    - intros [s' t'] H. exact H.
  Qed.
End Weights.

(* ------------------------------------------------------------------ *)
(** * Exact arithmetic, positive real weights *)
Local Open Scope R_scope.
Definition pos (c : rcen) : Prop := 0 < snd c.
Lemma Wt_pos g : Forall pos g -> g <> [] -> 0 < Wt g.
Proof.
  induction 1 as [|c g Hc H IH]; [congruence|]. intros _. rewrite Wt_cons. red in Hc.
  destruct g as [|d g]; [unfold Wt; cbn; lra|]. specialize (IH ltac:(discriminate)). lra.
Qed.
Lemma Wt_pos_nn g : Forall pos g -> 0 <= Wt g.
Proof. intros H. destruct g as [|c g]; [unfold Wt; cbn; lra|]. left. apply Wt_pos; auto. discriminate. Qed.
Lemma Sm_between_pos g a b : Forall pos g -> Forall (fun c => a <= fst c <= b) g -> a * Wt g <= Sm g <= b * Wt g.
Proof.
  induction 1 as [|c g Hc H IH]; intros HB.
  - unfold Wt, Sm; cbn. lra.
  - specialize (IH (Forall_inv_tail HB)). apply Forall_inv in HB. rewrite Wt_cons, Sm_cons. red in Hc. nra.
Qed.
Lemma ravg_between_pos g a b : Forall pos g -> g <> [] -> Forall (fun c => a <= fst c <= b) g -> a <= fst (ravg g) <= b.
Proof. intros H Hne HB. cbn [ravg fst]. apply div_between; [now apply Wt_pos|now apply Sm_between_pos]. Qed.
Lemma agg_emb_pos g : Forall pos g -> g <> [] -> agg (map emb g) = emb (ravg g).
Proof.
  intros H Hne. pose proof (Wt_pos H Hne) as HW. unfold agg, ravg.
  assert (agg_w (map emb g) = XFin (Wt g) /\ agg_s (map emb g) = XFin (Sm g)) as [-> ->].
  { destruct g as [|c g]; [congruence|]. clear. cbn [map agg_w agg_s emb mean weight]. rewrite xmul_fin, Wt_cons, Sm_cons. split.
    - generalize (snd c) as a. induction g as [|d g IH]; intros a; cbn [map fold_left emb weight].
      + unfold Wt; cbn. f_equal. lra.
      + rewrite xadd_fin, IH, Wt_cons. f_equal. lra.
    - generalize (fst c * snd c) as a. induction g as [|d g IH]; intros a; cbn [map fold_left emb weight mean].
      + unfold Sm; cbn. f_equal. lra.
      + rewrite xmul_fin, xadd_fin, IH, Sm_cons. f_equal. lra. }
  rewrite xdiv_fin by lra. reflexivity.
Qed.
Lemma pos_concat rs : Forall pos (concat rs) -> Forall (Forall pos) rs.
Proof. induction rs as [|g rs IH]; cbn [concat]; intros H; constructor; apply Forall_app in H as [A B]; auto. Qed.
Lemma ravg_sums_pos rs : Forall (Forall pos) rs -> Forall (fun g => g <> []) rs ->
  Wt (map ravg rs) = Wt (concat rs) /\ Sm (map ravg rs) = Sm (concat rs) /\ Forall pos (map ravg rs).
Proof.
  induction rs as [|g rs IH]; intros H1 H2; [repeat split; constructor|].
  destruct IH as (A & B & C); [now inversion H1|now inversion H2|]. cbn [map concat].
  pose proof (Wt_pos (Forall_inv H1) (Forall_inv H2)) as HW.
  rewrite Wt_cons, Sm_cons, Wt_app, Sm_app, A, B. cbn [ravg fst snd]. split; [lra|]. split; [field_simplify; lra|].
  constructor; auto.
Qed.
Lemma ravg_sorted_pos rs : Forall (Forall pos) rs -> Forall (fun g => g <> []) rs -> rsorted (concat rs) -> rsorted (map ravg rs).
Proof.
  induction rs as [|g rs IH]; intros H1 H2 H3; [constructor|]. cbn [concat map] in *.
  destruct (rsorted_app _ _ H3) as (A & B & C). constructor; [apply IH; auto; [now inversion H1|now inversion H2]|].
  apply Forall_map. apply Forall_inv_tail in H1 as H1'. apply Forall_inv_tail in H2 as H2'. apply Forall_inv in H1. apply Forall_inv in H2.
  rewrite Forall_forall in H1', H2' |- *. intros h Hh. specialize (H1' h Hh). specialize (H2' h Hh).
  destruct g as [|c0 g0]; [congruence|]. set (g := c0 :: g0) in *. destruct h as [|d h]; [congruence|].
  destruct (exists_last H2) as (g' & l & Eg).
  assert (fst (ravg g) <= fst l) as L1.
  { eapply Rle_trans; [apply (@ravg_between_pos g (fst c0) (fst l)); auto|lra].
    apply Forall_forall. intros c Hc. split; [now apply (@sorted_head_le g0 c0)|]. rewrite Eg in A, Hc. now apply (@sorted_last_ge g' l). }
  assert (In l g) as Hl by (rewrite Eg; apply in_or_app; right; now left).
  assert (forall c, In c (d :: h) -> fst l <= fst c) as L2.
  { intros c Hc. apply C; auto. apply in_concat. eauto. }
  assert (exists b, Forall (fun c => fst l <= fst c <= b) (d :: h)) as (b & Hb).
  { clear -L2. revert L2. generalize (d :: h) as k. induction k as [|c k IHk]; intros L2; [exists 0; constructor|].
    destruct IHk as (b & Hb); [intros; apply L2; now right|]. exists (Rmax b (fst c)). constructor.
    - split; [apply L2; now left|apply Rmax_r].
    - eapply Forall_impl; [|exact Hb]. intros e He. cbn beta in *. pose proof (Rmax_l b (fst c)). lra. }
  pose proof (ravg_between_pos H1' H2' Hb). lra.
Qed.

(** [strictly_asc cs]: strictly increasing means *)
Definition ascending (cs : list rcen) : Prop := StronglySorted (fun a b => fst a < fst b) cs.
Lemma ascending_rsorted cs : ascending cs -> rsorted cs.
Proof.
  induction 1 as [|c cs H IH HF]; constructor; auto. eapply Forall_impl; [|exact HF]. intros; cbn beta in *; lra.
Qed.
Lemma ascending_nth cs : ascending cs -> forall i j a b, (i < j)%nat -> nth_error cs i = Some a -> nth_error cs j = Some b -> fst a < fst b.
Proof.
  intros H i j a b Hij Ha Hb. apply nth_error_split in Ha as (l1 & l2 & -> & <-).
  apply SS_app in H as (_ & H & _). rewrite nth_error_app2 in Hb by lia. destruct (j - length l1)%nat as [|k] eqn:E; [lia|].
  apply StronglySorted_inv in H as [_ H]. rewrite Forall_forall in H. apply H. eapply nth_error_In, Hb.
Qed.
Lemma ascending_app a b : ascending (a ++ b) -> ascending a /\ ascending b /\ forall x y, In x a -> In y b -> fst x < fst y.
Proof. apply SS_app. Qed.
Lemma rsorted_mid a y b : rsorted a -> rsorted b -> (forall c, In c a -> fst c <= fst y) -> (forall c, In c b -> fst y <= fst c) -> rsorted (a ++ y :: b).
Proof.
  intros Ha Hb H1 H2. induction a as [|c a IH]; cbn [app].
  - constructor; auto. apply Forall_forall. auto.
  - apply StronglySorted_inv in Ha as [Ha Hc]. constructor; [apply IH; auto; intros; apply H1; now right|].
    apply Forall_app. split; auto. constructor; [apply H1; now left|]. apply Forall_forall. intros d Hd.
    specialize (H1 c (or_introl eq_refl)). specialize (H2 d Hd). lra.
Qed.

Section Pos.
  Variable cfg : tcfg xr.
  Hypothesis Hlib : lib_ok cfg.

  Lemma merge_pos s cs buf : t_centroids s = map emb cs -> Forall pos cs -> Forall pos buf -> buf ++ cs <> [] ->
    exists sorted rs first lst,
      Permutation sorted (buf ++ cs) /\ rsorted sorted /\ concat rs = sorted /\ Forall (Forall pos) rs /\ Forall (fun g => g <> []) rs /\
      head sorted = Some first /\ last_error sorted = Some lst /\
      add_centroid_buffer cfg s (map emb buf) =
        Ret {| t_centroids := map emb (map ravg rs); t_min := fmin (t_min s) (XFin (fst first)); t_max := fmax (t_max s) (XFin (fst lst));
               t_tick := S (t_tick s) |}.
  Proof.
    intros Hcs Hh Hb Hne.
    assert (map emb buf ++ t_centroids s = map emb (buf ++ cs)) as Eb by (rewrite Hcs; now rewrite map_app).
    destruct (@add_centroid_buffer_spec xr xr_ops cfg Hlib s (map emb buf)) as (sorted & gs & first & lst & A1 & A2 & A3 & A4 & A5 & A6 & ->).
    { rewrite Eb. intros E. apply map_eq_nil in E. congruence. }
    { right. rewrite Eb. apply Forall_map. apply Forall_forall. intros c _. apply xnn. }
    rewrite Eb in A1. apply perm_emb in A1 as (sr & -> & HP).
    destruct (concat_emb _ _ A6) as (rs & -> & E2).
    assert (Forall pos (concat rs)) as Hall.
    { rewrite E2. eapply Permutation_Forall; [symmetry; exact HP|]. apply Forall_app; auto. }
    apply pos_concat in Hall as Hall'.
    assert (Forall (fun g => g <> []) rs) as Hrne.
    { apply merges_ne in A5 as [_ A5]. rewrite Forall_map in A5. eapply Forall_impl; [|exact A5]. intros g Hg E. apply Hg. now rewrite E. }
    assert (exists f, head sr = Some f /\ first = emb f) as (f & Ef & ->).
    { destruct sr as [|f sr]; [discriminate|]. injection A3 as <-. exists f. auto. }
    assert (exists l, last_error sr = Some l /\ lst = emb l) as (l & El & ->).
    { apply last_error_split in A4 as (l' & E). apply map_eq_app in E as (s1 & s2 & -> & <- & E).
      destruct s2 as [|l [|? ?]]; try discriminate. injection E as <-. exists l. split; auto. apply last_error_app. }
    exists sr, rs, f, l. split; [auto|]. split.
    { apply sorted_emb, A2. apply Forall_map. apply Forall_forall. intros c _. apply xnn. }
    split; [auto|]. split; [auto|]. split; [auto|]. split; [auto|]. split; [auto|].
    f_equal. f_equal. rewrite !map_map. apply map_ext_in. intros g Hg. rewrite Forall_forall in Hall', Hrne. apply agg_emb_pos; auto.
  Qed.

  (** the state during clustering *)
  Record cinv (s : tdigest xr) (cs : list rcen) (lo hi : R) : Prop := {
    ci_cs : t_centroids s = map emb cs;
    ci_pos : Forall pos cs;
    ci_rng : Forall (fun c => lo <= fst c <= hi) cs;
    ci_min : t_min s = XFin lo;
    ci_max : t_max s = XFin hi;
  }.

  Lemma clean_emb cs : clean (map emb cs).
  Proof. apply Forall_map, Forall_forall. intros; apply xnn. Qed.

  (** merging what is there *)
  Lemma remerge_pos s cs buf lo hi : cinv s cs lo hi -> Forall pos buf -> Forall (fun c => lo <= fst c <= hi) buf -> buf ++ cs <> [] ->
    exists s' cs', add_centroid_buffer cfg s (map emb buf) = Ret s' /\ cinv s' cs' lo hi /\ rsorted cs' /\ cs' <> [] /\ Wt cs' = Wt buf + Wt cs /\ Sm cs' = Sm buf + Sm cs.
  Proof.
    intros [I1 I2 I3 I4 I5] Hb1 Hb2 Hne.
    destruct (@merge_pos s cs buf I1 I2 Hb1 Hne) as (sr & rs & f & l & A1 & A2 & A3 & A4 & A5 & A6 & A7 & ->).
    destruct (ravg_sums_pos A4 A5) as (W1 & W2 & W3). rewrite A3, (Wt_perm A1), Wt_app in W1. rewrite A3, (Sm_perm A1), Sm_app in W2.
    assert (Forall (fun c => lo <= fst c <= hi) sr) as HR.
    { eapply Permutation_Forall; [symmetry; exact A1|]. apply Forall_app; auto. }
    eexists. exists (map ravg rs). split; [reflexivity|]. split; [|split; [|split; [|split; auto]]].
    - constructor; cbn [t_centroids t_min t_max]; auto.
      + rewrite <- A3 in HR. apply Forall_map. rewrite Forall_forall in A4, A5, HR |- *. intros g Hg. apply ravg_between_pos; auto.
        apply Forall_forall. intros c Hc. apply HR. apply in_concat. eauto.
      + rewrite I4, xmin_fin. f_equal. apply Rmin_left. rewrite Forall_forall in HR. apply (HR f). now apply head_In.
      + rewrite I5, xmax_fin. f_equal. apply Rmax_left. rewrite Forall_forall in HR. apply (HR l). now apply last_error_In.
    - apply ravg_sorted_pos; auto. now rewrite A3.
    - intros E. apply map_eq_nil in E. subst rs. cbn in A3. subst sr. discriminate.
  Qed.

  Lemma cen_add_emb m x : pos m -> pos x -> cen_add (emb m) (emb x) = emb (ravg [m; x]).
  Proof.
    intros Hm Hx. red in Hm, Hx. unfold cen_add, emb. cbn [mean weight ravg fst snd]. rewrite xadd_fin, !xmul_fin, xadd_fin, xdiv_fin by lra.
    unfold Sm, Wt. cbn [map sumR fold_right fst snd]. f_equal; f_equal; [f_equal|]; lra.
  Qed.
  Lemma pair_avg m x a b : pos m -> pos x -> a <= fst m <= b -> a <= fst x <= b -> a <= fst (ravg [m; x]) <= b.
  Proof.
    intros. apply ravg_between_pos; [|discriminate|].
    - apply Forall_cons; auto.
    - apply Forall_cons; auto.
  Qed.

  (** the embedded form of [placed] *)
  Lemma placed_emb cs x cs' : placed (map emb cs) (emb x) cs' -> Forall pos cs -> pos x ->
    exists rs, cs' = map emb rs /\ Forall pos rs /\ Wt rs = Wt cs + snd x /\ Sm rs = Sm cs + fst x * snd x /\ rs <> [] /\
      (forall lo hi, Forall (fun c => lo <= fst c <= hi) (x :: cs) -> Forall (fun c => lo <= fst c <= hi) rs).
  Proof.
    intros [(a & m & b & E & ->)|(a & b & E & ->)] Hp Hx.
    - apply map_eq_app in E as (ra & rb & -> & <- & E). destruct rb as [|rm rb]; [discriminate|]. injection E as <- <-.
      apply Forall_app in Hp as [Hp1 Hp2]. pose proof (Forall_inv Hp2) as Hm. apply Forall_inv_tail in Hp2.
      exists (ra ++ ravg [rm; x] :: rb). rewrite map_app. cbn [map]. rewrite cen_add_emb by auto. split; [reflexivity|].
      assert (0 < Wt [rm; x]) as HW by (apply Wt_pos; [apply Forall_cons; auto|discriminate]).
      assert (Wt [rm; x] = snd rm + snd x) as EW by (unfold Wt; cbn; lra).
      assert (Sm [rm; x] = fst rm * snd rm + fst x * snd x) as ES by (unfold Sm; cbn; lra).
      split; [|split; [|split; [|split]]].
      + apply Forall_app. split; auto.
      + rewrite !Wt_app, !Wt_cons. cbn [ravg snd]. lra.
      + rewrite !Sm_app, !Sm_cons. cbn [ravg fst snd]. replace (Sm [rm; x] / Wt [rm; x] * Wt [rm; x]) with (Sm [rm; x]) by (field; lra). lra.
      + intros E0. apply app_eq_nil in E0 as [_ ?]. discriminate.
      + intros lo hi H. pose proof (Forall_inv H) as H0. apply Forall_inv_tail in H. apply Forall_app in H as [H1 H2].
        apply Forall_app. split; auto. constructor; [|now inversion H2]. apply pair_avg; auto. now inversion H2.
    - apply map_eq_app in E as (ra & rb & -> & <- & <-). apply Forall_app in Hp as [Hp1 Hp2].
      exists (ra ++ x :: rb). rewrite map_app. cbn [map]. split; [reflexivity|]. split; [|split; [|split; [|split]]].
      + apply Forall_app. split; auto.
      + rewrite !Wt_app, !Wt_cons. lra.
      + rewrite !Sm_app, !Sm_cons. lra.
      + intros E0. apply app_eq_nil in E0 as [_ ?]. discriminate.
      + intros lo hi H. pose proof (Forall_inv H) as H0. apply Forall_inv_tail in H. apply Forall_app in H as [H1 H2].
        apply Forall_app. auto.
  Qed.

  Variables (g : xr) (lim : R).
  Hypothesis Hlim : fmul g (tc_cf cfg) = XFin lim.
  Hypothesis Hl : -1 < lim < IZR (2 ^ 64).

  Lemma lim_ok : exists k, to_usize (fmul g (tc_cf cfg)) = Ret k.
  Proof. unfold to_usize. rewrite Hlim. rewrite (@ftoZ_fin xr xr_ops (xr_laws (Z.le_refl 4096)) (XFin lim) lim eq_refl Hl). cbn. eauto. Qed.

  Lemma cluster_one_pos s cs lo hi total x : cinv s cs lo hi -> pos x -> lo <= fst x <= hi ->
    exists s' cs' t', cluster_one cfg g (s, total) (emb x) = Ret (s', t') /\ cinv s' cs' lo hi /\ cs' <> [] /\
      Wt cs' = Wt cs + snd x /\ Sm cs' = Sm cs + fst x * snd x.
  Proof.
    intros HI Hx Hr. pose proof HI as [I1 I2 I3 I4 I5].
    destruct (cluster_cases Hlib g s total (emb x)) as [[_ H]|(cs1 & k & HP & ->)].
    { exfalso. apply H. rewrite I1. split; [apply clean_emb|apply xnn]. }
    rewrite I1 in HP. destruct (placed_emb HP I2 Hx) as (rs & -> & R1 & R2 & R3 & R4 & R5).
    unfold after_place. destruct lim_ok as (kl & ->). cbn [bind].
    set (s' := {| t_centroids := map emb rs; t_min := t_min s; t_max := t_max s; t_tick := k |}).
    assert (cinv s' rs lo hi) as HI' by (constructor; auto).
    destruct (kl <? _)%nat.
    - unfold td_add_buffer. cbn [map]. destruct (@remerge_pos s' rs [] lo hi HI') as (s2 & cs2 & E & A1 & A2 & A3 & A4 & A5); try constructor; auto.
      cbn [map] in E. rewrite E. cbn [bind]. exists s2, cs2. eexists. split; [reflexivity|]. unfold Wt, Sm in A4, A5. cbn [map sumR fold_right] in A4, A5.
      fold (Wt cs2) (Wt rs) in A4. fold (Sm cs2) (Sm rs) in A5. repeat split; auto; try apply A1; lra.
    - exists s', rs. eexists. split; [reflexivity|]. repeat split; auto.
  Qed.

  Lemma clusters_pos xs : forall s cs lo hi total, cinv s cs lo hi -> Forall pos xs -> Forall (fun c => lo <= fst c <= hi) xs ->
    exists s' cs' t', foldM (cluster_one cfg g) (s, total) (map emb xs) = Ret (s', t') /\ cinv s' cs' lo hi /\ (cs ++ xs <> [] -> cs' <> []) /\
      Wt cs' = Wt cs + Wt xs /\ Sm cs' = Sm cs + Sm xs.
  Proof.
    induction xs as [|x xs IH]; intros s cs lo hi total HI Hp Hr; cbn [map foldM].
    - exists s, cs. eexists. split; [reflexivity|]. split; [exact HI|]. split; [now rewrite app_nil_r|]. change (Wt []) with 0. change (Sm []) with 0. lra.
    - destruct (@cluster_one_pos s cs lo hi total x HI (Forall_inv Hp) (Forall_inv Hr)) as (s1 & cs1 & t1 & -> & A1 & A2 & A3 & A4). cbn [bind].
      destruct (IH s1 cs1 lo hi t1 A1 (Forall_inv_tail Hp) (Forall_inv_tail Hr)) as (s2 & cs2 & t2 & E & B1 & B2 & B3 & B4).
      exists s2, cs2, t2. split; [exact E|]. split; [exact B1|]. split; [intros _; apply B2; destruct cs1; [congruence|discriminate]|].
      rewrite Wt_cons, Sm_cons. lra.
  Qed.

  (** extremes of the means *)
  Definition span (l : list R) (lo hi : R) : Prop := leastR l lo /\ mostR l hi.

  Lemma min_fold l : forall a, exists m, foldM (fun m x : xr => do c <- cmp_unwrap m x; Ret match c with Gt => x | _ => m end) (XFin a) (map XFin l) = Ret (XFin m) /\ leastR (a :: l) m.
  Proof.
    induction l as [|x l IH]; intros a; cbn [map foldM].
    - exists a. split; [reflexivity|]. split; [now left|]. intros y [->|[]]; lra.
    - change (cmp_unwrap (XFin a) (XFin x)) with (@Ret comparison (Rcompare a x)). cbn [bind].
      destruct (Rcompare_spec a x) as [C|C|C].
      + destruct (IH a) as (m & E & H1 & H2). exists m. split; [exact E|]. split.
        * destruct H1 as [->|H1]; [now left|now right; right].
        * intros y [->|[->|Hy]]; [apply H2; now left| |apply H2; now right]. specialize (H2 a (or_introl eq_refl)). lra.
      + destruct (IH a) as (m & E & H1 & H2). exists m. split; [exact E|]. split.
        * destruct H1 as [->|H1]; [now left|now right; right].
        * intros y [->|[->|Hy]]; [apply H2; now left| |apply H2; now right]. specialize (H2 a (or_introl eq_refl)). lra.
      + destruct (IH x) as (m & E & H1 & H2). exists m. split; [exact E|]. split.
        * now right.
        * intros y [->|Hy]; [|now apply H2]. specialize (H2 x (or_introl eq_refl)). lra.
  Qed.
  Lemma max_fold l : forall a, exists m, foldM (fun m x : xr => do c <- cmp_unwrap m x; Ret match c with Gt => m | _ => x end) (XFin a) (map XFin l) = Ret (XFin m) /\ mostR (a :: l) m.
  Proof.
    induction l as [|x l IH]; intros a; cbn [map foldM].
    - exists a. split; [reflexivity|]. split; [now left|]. intros y [->|[]]; lra.
    - change (cmp_unwrap (XFin a) (XFin x)) with (@Ret comparison (Rcompare a x)). cbn [bind].
      destruct (Rcompare_spec a x) as [C|C|C].
      + destruct (IH x) as (m & E & H1 & H2). exists m. split; [exact E|]. split.
        * now right.
        * intros y [->|Hy]; [|now apply H2]. specialize (H2 x (or_introl eq_refl)). lra.
      + destruct (IH x) as (m & E & H1 & H2). exists m. split; [exact E|]. split.
        * now right.
        * intros y [->|Hy]; [|now apply H2]. specialize (H2 x (or_introl eq_refl)). lra.
      + destruct (IH a) as (m & E & H1 & H2). exists m. split; [exact E|]. split.
        * destruct H1 as [->|H1]; [now left|now right; right].
        * intros y [->|[->|Hy]]; [apply H2; now left| |apply H2; now right]. specialize (H2 a (or_introl eq_refl)). lra.
  Qed.

  (** [fed s its]: the digest [s] holds the weighted values [its] *)
  Definition fed (s : tdigest xr) (its : list rcen) : Prop :=
    (its = [] /\ t_centroids s = [] /\ t_min s = XInf false /\ t_max s = XInf true) \/
    (its <> [] /\ exists cs lo hi, cinv s cs lo hi /\ cs <> [] /\ span (map fst its) lo hi /\ Wt cs = Wt its /\ Sm cs = Sm its).

  Lemma update_limits_fed s its xs : fed s its -> xs <> [] ->
    exists s' cs lo hi, update_limits s (map emb xs) = Ret s' /\ cinv s' cs lo hi /\ span (map fst (its ++ xs)) lo hi /\ Wt cs = Wt its /\ Sm cs = Sm its.
  Proof.
    intros HF Hne. unfold update_limits. rewrite map_map. cbn [emb mean].
    replace (map (fun x : rcen => XFin (fst x)) xs) with (map XFin (map fst xs)) by (now rewrite map_map).
    destruct xs as [|x xs]; [congruence|]. cbn [map min_by_key max_by_key]. unfold liftM.
    destruct (min_fold (map fst xs) (fst x)) as (mn & -> & Hmn). destruct (max_fold (map fst xs) (fst x)) as (mx & -> & Hmx). cbn [bind].
    change (fst x :: map fst xs) with (map fst (x :: xs)) in *. set (ys := x :: xs) in *.
    destruct HF as [(-> & E1 & E2 & E3)|(Hi & cs & lo & hi & [I1 I2 I3 I4 I5] & Hcs & [Hlo Hhi] & HW & HS)].
    - eexists. exists [], mn, mx. split; [reflexivity|]. cbn [app]. split; [|split; [split; auto|split; reflexivity]].
      constructor; cbn [t_centroids t_min t_max]; auto; [rewrite E2|rewrite E3]; reflexivity.
    - eexists. exists cs, (Rmin mn lo), (Rmax mx hi). split; [reflexivity|]. rewrite map_app. split; [|split; [|split; auto]].
      + constructor; cbn [t_centroids t_min t_max]; auto.
        * eapply Forall_impl; [|exact I3]. intros c Hc. cbn beta in *. pose proof (Rmin_r mn lo). pose proof (Rmax_r mx hi). lra.
        * now rewrite I4, xmin_fin.
        * now rewrite I5, xmax_fin.
      + destruct Hmn as [M1 M2], Hmx as [N1 N2], Hlo as [L1 L2], Hhi as [K1 K2]. split; split.
        * unfold Rmin. destruct (Rle_dec mn lo); apply in_or_app; auto.
        * intros y Hy. pose proof (Rmin_l mn lo). pose proof (Rmin_r mn lo). apply in_app_or in Hy as [Hy|Hy]; [specialize (L2 y Hy)|specialize (M2 y Hy)]; lra.
        * unfold Rmax. destruct (Rle_dec mx hi); apply in_or_app; auto.
        * intros y Hy. pose proof (Rmax_l mx hi). pose proof (Rmax_r mx hi). apply in_app_or in Hy as [Hy|Hy]; [specialize (K2 y Hy)|specialize (N2 y Hy)]; lra.
  Qed.

  Theorem add_cluster_fed s its xs : fed s its -> Forall pos xs ->
    exists s', add_cluster cfg s (map emb xs) g = Ret s' /\ fed s' (its ++ xs).
  Proof.
    intros HF Hp. destruct xs as [|x0 xs0].
    - unfold add_cluster. cbn [map]. unfold update_limits. cbn [map min_by_key max_by_key bind foldM]. rewrite app_nil_r.
      eexists. split; [reflexivity|]. destruct HF as [(-> & E1 & E2 & E3)|(Hi & cs & lo & hi & [I1 I2 I3 I4 I5] & R)].
      + left. cbn [t_centroids t_min t_max]. rewrite E1, E2, E3. auto.
      + right. split; auto. exists cs, lo, hi. split; [|exact R]. constructor; cbn [t_centroids t_min t_max]; auto; [rewrite I4|rewrite I5]; reflexivity.
    - set (xs := x0 :: xs0) in *. destruct (@update_limits_fed s its xs HF) as (s1 & cs & lo & hi & E & HI & [Hlo Hhi] & HW & HS); [discriminate|].
      unfold add_cluster. rewrite E. cbn [bind].
      destruct (@clusters_pos xs s1 cs lo hi (total_weight s1) HI Hp) as (s2 & cs2 & t2 & -> & A1 & A2 & A3 & A4).
      { apply Forall_forall. intros c Hc. assert (In (fst c) (map fst (its ++ xs))) as Hin by (apply in_map, in_or_app; auto).
        split; [apply Hlo|apply Hhi]; auto. }
      cbn [bind]. exists s2. split; [reflexivity|]. right. split; [intros E0; apply app_eq_nil in E0 as [_ ?]; discriminate|].
      exists cs2, lo, hi. rewrite Wt_app, Sm_app. split; [auto|]. split; [|split; [split; auto|lra]].
      apply A2. intros E0. apply app_eq_nil in E0 as [_ ?]. discriminate.
  Qed.
End Pos.

(** merging buffers keeps the same invariant, so that both kinds of operation can be mixed *)
Section Mixed.
  Variable cfg : tcfg xr.
  Hypothesis Hlib : lib_ok cfg.

  Lemma add_buffer_fed s its buf : fed s its -> Forall pos buf ->
    exists s', add_centroid_buffer cfg s (map emb buf) = Ret s' /\ fed s' (its ++ buf).
  Proof.
    intros HF Hp.
    destruct HF as [(-> & E1 & E2 & E3)|(Hi & cs & lo & hi & HI & Hcs & [Hlo Hhi] & HW & HS)].
    - destruct buf as [|b buf]; [exists s; split; [unfold add_centroid_buffer; cbn [map app]; now rewrite E1|left; auto]|]. set (bs := b :: buf) in *.
      destruct (@merge_pos cfg Hlib s [] bs E1) as (sr & rs & f & l & A1 & A2 & A3 & A4 & A5 & A6 & A7 & ->); auto; [discriminate|].
      rewrite app_nil_r in A1. destruct (ravg_sums_pos A4 A5) as (W1 & W2 & W3). rewrite A3, (Wt_perm A1) in W1. rewrite A3, (Sm_perm A1) in W2.
      eexists. split; [reflexivity|]. right. split; [discriminate|]. exists (map ravg rs), (fst f), (fst l). rewrite E2, E3, xmin_inf, xmax_inf.
      assert (forall c, In c sr -> fst f <= fst c) as Hf. { destruct sr as [|f' sr]; [discriminate|]. injection A6 as ->. now apply sorted_head_le. }
      assert (forall c, In c sr -> fst c <= fst l) as Hl. { destruct (last_error_split _ A7) as (s0 & ->). now apply sorted_last_ge. }
      split; [|split; [|split; [|split; auto]]].
      + constructor; cbn [t_centroids t_min t_max]; auto. apply Forall_map. rewrite Forall_forall in A4, A5 |- *. intros h Hh. apply ravg_between_pos; auto.
        apply Forall_forall. intros c Hc. assert (In c sr) by (rewrite <- A3; apply in_concat; eauto). auto.
      + intros E. apply map_eq_nil in E. subst rs. cbn in A3. subst sr. discriminate.
      + cbn [app]. split; split.
        * apply in_map, (Permutation_in _ A1). now apply head_In.
        * intros y Hy. apply in_map_iff in Hy as (c & <- & Hc). apply Hf. now apply (Permutation_in _ (Permutation_sym A1)).
        * apply in_map, (Permutation_in _ A1). now apply last_error_In.
        * intros y Hy. apply in_map_iff in Hy as (c & <- & Hc). apply Hl. now apply (Permutation_in _ (Permutation_sym A1)).
    - pose proof HI as [I1 I2 I3 I4 I5].
      destruct (@merge_pos cfg Hlib s cs buf I1 I2 Hp) as (sr & rs & f & l & A1 & A2 & A3 & A4 & A5 & A6 & A7 & ->).
      { intros E. apply app_eq_nil in E as [_ ?]. congruence. }
      destruct (ravg_sums_pos A4 A5) as (W1 & W2 & W3). rewrite A3, (Wt_perm A1), Wt_app in W1. rewrite A3, (Sm_perm A1), Sm_app in W2.
      eexists. split; [reflexivity|]. right. split; [intros E; apply app_eq_nil in E as [? _]; congruence|].
      exists (map ravg rs), (Rmin lo (fst f)), (Rmax hi (fst l)). rewrite I4, I5, xmin_fin, xmax_fin.
      assert (forall c, In c sr -> fst f <= fst c) as Hf. { destruct sr as [|f' sr]; [discriminate|]. injection A6 as ->. now apply sorted_head_le. }
      assert (forall c, In c sr -> fst c <= fst l) as Hl. { destruct (last_error_split _ A7) as (s0 & ->). now apply sorted_last_ge. }
      assert (forall c, In c sr -> (In c buf \/ lo <= fst c <= hi)) as Hor.
      { intros c Hc. apply (Permutation_in _ A1) in Hc. apply in_app_or in Hc as [Hc|Hc]; auto. right. rewrite Forall_forall in I3. auto. }
      assert (In f sr) as Inf by now apply head_In. assert (In l sr) as Inl by now apply last_error_In.
      destruct Hlo as [L1 L2], Hhi as [K1 K2].
      split; [|split; [|split; [|rewrite Wt_app, Sm_app; lra]]].
      + constructor; cbn [t_centroids t_min t_max]; auto. apply Forall_map. rewrite Forall_forall in A4, A5 |- *. intros h Hh. apply ravg_between_pos; auto.
        apply Forall_forall. intros c Hc. assert (In c sr) as Hs by (rewrite <- A3; apply in_concat; eauto).
        specialize (Hf c Hs). specialize (Hl c Hs). pose proof (Rmin_r lo (fst f)). pose proof (Rmax_r hi (fst l)). lra.
      + intros E. apply map_eq_nil in E. subst rs. cbn in A3. subst sr. discriminate.
      + rewrite map_app. split; split.
        * unfold Rmin. destruct (Rle_dec lo (fst f)) as [|N]; [apply in_or_app; auto|]. destruct (Hor f Inf) as [|]; [|lra]. apply in_or_app. right. now apply in_map.
        * intros y Hy. pose proof (Rmin_l lo (fst f)). pose proof (Rmin_r lo (fst f)). apply in_app_or in Hy as [Hy|Hy]; [specialize (L2 y Hy); lra|].
          apply in_map_iff in Hy as (c & <- & Hc). assert (In c sr) as Hs by (apply (Permutation_in _ (Permutation_sym A1)), in_or_app; auto). specialize (Hf c Hs). lra.
        * unfold Rmax. destruct (Rle_dec hi (fst l)) as [N|]; [|apply in_or_app; auto]. destruct (Hor l Inl) as [|]; [apply in_or_app; right; now apply in_map|].
          assert (hi = fst l) as <- by lra. apply in_or_app; auto.
        * intros y Hy. pose proof (Rmax_l hi (fst l)). pose proof (Rmax_r hi (fst l)). apply in_app_or in Hy as [Hy|Hy]; [specialize (K2 y Hy); lra|].
          apply in_map_iff in Hy as (c & <- & Hc). assert (In c sr) as Hs by (apply (Permutation_in _ (Permutation_sym A1)), in_or_app; auto). specialize (Hl c Hs). lra.
  Qed.

  Lemma fed_new : fed td_new [].
  Proof. left. repeat split; reflexivity. Qed.
End Mixed.

(* ------------------------------------------------------------------ *)
(** * Which centroids are considered, and order, in exact arithmetic *)
Section Order.
  Variable cfg : tcfg xr.
  Hypothesis Hlib : lib_ok cfg.
  Local Open Scope nat_scope.

  Lemma nth_emb cs i c : nth_error cs i = Some c -> nth_cen (map emb cs) i = Ret (emb c).
  Proof. intros H. unfold nth_cen. now rewrite nth_error_map, H. Qed.
  Lemma nth_some {A} (l : list A) i : i < length l -> exists c, nth_error l i = Some c.
  Proof. intros H. destruct (nth_error l i) eqn:E; [eauto|]. apply nth_error_None in E. lia. Qed.

  Lemma diff_eq c t d : feq (fsub (mean (emb c)) (XFin t)) (XFin (d - t)%R) = true <-> fst c = d.
  Proof. cbn [emb mean]. rewrite xsub_fin. rewrite xeq_b. split; intros; lra. Qed.

  Lemma shift_left_exact cs t d : forall li, li <= length cs ->
    exists li', shift_left (map emb cs) (XFin t) (XFin (d - t)%R) li = Ret li' /\ li' <= li /\
      (forall j c, li' <= j < li -> nth_error cs j = Some c -> fst c = d) /\
      (forall c, 0 < li' -> nth_error cs (li' - 1) = Some c -> fst c <> d).
  Proof.
    induction li as [|l IH]; intros H; cbn [shift_left].
    - exists 0. split; [reflexivity|]. split; [lia|]. split; intros; lia.
    - destruct (nth_some cs (i := l)) as (c & Hc); [lia|]. rewrite (nth_emb _ _ Hc). cbn [bind].
      destruct (feq _ _) eqn:E.
      + apply diff_eq in E. destruct IH as (l' & -> & Hl & A & B); [lia|]. exists l'. split; [reflexivity|]. split; [lia|]. split; auto.
        intros j e Hj He. destruct (Nat.eq_dec j l) as [->|N]; [congruence|]. apply (A j); auto. lia.
      + exists (S l). split; [reflexivity|]. split; [lia|]. split; [intros; lia|]. intros e _ He. replace (S l - 1) with l in He by lia.
        intros Hd. assert (e = c) as -> by congruence. apply diff_eq with (t := t) in Hd. congruence.
  Qed.
  Lemma shift_right_exact cs t d : forall fuel ri, ri <= length cs -> length cs - ri <= fuel ->
    exists ri', shift_right fuel (map emb cs) (XFin t) (XFin (d - t)%R) ri = Ret ri' /\ ri <= ri' <= length cs /\
      (forall j c, ri <= j < ri' -> nth_error cs (S j) = Some c -> fst c = d) /\ (ri < ri' -> ri' < length cs).
  Proof.
    induction fuel as [|fuel IH]; intros ri H Hf; cbn [shift_right]; rewrite map_length; destruct (Nat.ltb_spec (S ri) (length cs)) as [L|L]; try lia;
      try (exists ri; split; [reflexivity|split; [lia|split; intros; lia]]; fail).
    destruct (nth_some _ L) as (c & Hc). rewrite (nth_emb _ _ Hc). cbn [bind]. destruct (feq _ _) eqn:E.
    - apply diff_eq in E. destruct (IH (S ri)) as (r & -> & Hr & A & B); try lia. exists r. split; [reflexivity|]. split; [lia|]. split.
      + intros j e Hj He. destruct (Nat.eq_dec j ri) as [->|N]; [congruence|]. apply (A j); auto. lia.
      + intros _. destruct (Nat.eq_dec r (S ri)) as [->|N]; [lia|]. apply B. lia.
    - exists ri. split; [reflexivity|split; [lia|split; intros; lia]].
  Qed.

  Lemma rsorted_nth cs : rsorted cs -> forall i j a b, i <= j -> nth_error cs i = Some a -> nth_error cs j = Some b -> (fst a <= fst b)%R.
  Proof.
    intros H i j a b Hij Ha Hb. apply nth_error_split in Ha as (l1 & l2 & -> & <-).
    apply SS_app in H as (_ & H & _). rewrite nth_error_app2 in Hb by lia. destruct (j - length l1) as [|k].
    - injection Hb as ->. lra.
    - apply StronglySorted_inv in H as [_ H]. rewrite Forall_forall in H. apply H. eapply nth_error_In, Hb.
  Qed.
  Lemma rsorted_means cs : rsorted cs -> forall i j a b, i < j -> nth_error (map mean (map emb cs)) i = Some a -> nth_error (map mean (map emb cs)) j = Some b -> fle a b = true.
  Proof.
    intros H i j a b Hij. rewrite map_map, !nth_error_map. destruct (nth_error cs i) as [c|] eqn:Ec; [|discriminate]. destruct (nth_error cs j) as [d|] eqn:Ed; [|discriminate].
    cbn [option_map emb mean]. intros [= <-] [= <-]. apply xle_b. apply (rsorted_nth H (i := i) (j := j)); auto. lia.
  Qed.

  (** [cut cs x i]: the centroids before [i] are at most [x], those from [i] on at least [x] *)
  Definition cut (cs : list rcen) (x : R) (i : nat) : Prop :=
    i <= length cs /\ (forall j c, j < i -> nth_error cs j = Some c -> (fst c <= x)%R) /\ (forall j c, i <= j -> nth_error cs j = Some c -> (x <= fst c)%R).

  Lemma search_exact tick cs x : rsorted cs -> exists i, binary_search cfg tick (map emb cs) (XFin x) = Ret i /\ cut cs x i.
  Proof.
    intros HS. destruct cs as [|c0 cs0].
    - exists 0. split; [reflexivity|]. split; [cbn; lia|]. split; intros [|j] c; discriminate.
    - set (cs := c0 :: cs0) in *. destruct (@binary_search_ok xr xr_ops cfg Hlib tick (map emb cs) (XFin x) (clean_emb cs) (xnn x)) as (i & E & Hi & Es).
      exists i. split; [exact E|]. rewrite map_length in Hi. split; [auto|].
      specialize (Es ltac:(discriminate)).
      destruct (@lo_search xr xr_ops cfg Hlib tick (map mean (map emb cs)) (XFin x)) as (A & B & _).
      { apply xnn. } { apply Forall_map. apply (clean_emb cs). } { now apply rsorted_means. }
      rewrite <- Es in A, B. split; intros j c Hj Hc.
      + specialize (A j (XFin (fst c)) Hj). rewrite map_map, nth_error_map, Hc in A. now apply xle_b, A.
      + specialize (B j (XFin (fst c)) Hj). rewrite map_map, nth_error_map, Hc in B. now apply xle_b, B.
  Qed.

  (** the range returned: around the cut, and made of the cut's two neighbours and copies of them *)
  Lemma find_closest_exact tick cs x : cs <> [] -> rsorted cs ->
    exists i li ri, cut cs x i /\ find_closest cfg tick (map emb cs) (XFin x) = Ret (Some (li, ri)) /\
      li <= i - 1 /\ Nat.min (S i) (length cs) <= ri <= length cs /\ li < ri /\
      (forall j c, li <= j < ri -> nth_error cs j = Some c -> j = i \/ exists d, nth_error cs (i - 1) = Some d /\ fst c = fst d).
  Proof.
    intros Hne HS. destruct (search_exact tick x HS) as (i & Ei & HC). pose proof HC as (Hi & C1 & C2).
    unfold find_closest. rewrite Ei. destruct cs as [|c0 cs0] eqn:Ecs; [congruence|]. cbn [map]. rewrite <- Ecs in *. change (emb c0 :: map emb cs0) with (map emb (c0 :: cs0)).
    rewrite <- Ecs. cbn [bind]. assert (1 <= length cs) as Hlen by (rewrite Ecs; cbn; lia). clear Ecs c0 cs0.
    exists i. rewrite map_length.
    (* the tail of the function, for a distance that is the one of centroid [k] *)
    assert (forall d li ri, li < ri <= length cs -> exists li' ri',
      (do l <- shift_left (map emb cs) (XFin x) (XFin (d - x)) li; do r <- shift_right (length cs) (map emb cs) (XFin x) (XFin (d - x)) ri; Ret (Some (l, r))) = Ret (Some (li', ri')) /\
        li' <= li /\ (forall j c, li' <= j < li -> nth_error cs j = Some c -> fst c = d) /\ (forall c, 0 < li' -> nth_error cs (li' - 1) = Some c -> fst c <> d) /\
        ri <= ri' <= length cs /\ (forall j c, ri <= j < ri' -> nth_error cs (S j) = Some c -> fst c = d) /\ (ri < ri' -> ri' < length cs)) as HT.
    { intros d li ri Hr. destruct (shift_left_exact cs x d (li := li)) as (li' & -> & L1 & L2 & L3); [lia|]. cbn [bind].
      destruct (shift_right_exact cs x d (fuel := length cs) (ri := ri)) as (ri' & -> & R1 & R2 & R3); try lia. cbn [bind].
      exists li', ri'. auto 10. }
    destruct (Nat.eqb_spec i 0) as [->|N0].
    - destruct (nth_some cs (i := 0)) as (c & Hc); [lia|]. rewrite (nth_emb _ _ Hc). cbn [bind emb mean]. rewrite xsub_fin.
      destruct (HT (fst c) 0 1) as (li & ri & -> & L1 & L2 & L3 & R1 & R2 & R3); [lia|]. exists li, ri. split; auto. split; [reflexivity|].
      split; [lia|]. split; [lia|]. split; [lia|].
      intros j e Hj He. destruct (Nat.eq_dec j 0) as [->|Nj]; [auto|]. right. exists c. split; [exact Hc|].
      destruct (nth_some cs (i := ri)) as (f & Hf); [lia|]. replace ri with (S (ri - 1)) in Hf by lia.
      assert (fst f = fst c) as Ef by (apply (R2 (ri - 1)); auto; lia).
      assert (fst c <= fst e)%R by (apply (rsorted_nth HS (i := 0) (j := j)); auto; lia).
      assert (fst e <= fst f)%R by (apply (rsorted_nth HS (i := j) (j := S (ri - 1))); auto; lia). lra.
    - destruct (Nat.eqb_spec i (length cs)) as [E|N1].
      + destruct (nth_some cs (i := i - 1)) as (c & Hc); [lia|]. rewrite (nth_emb _ _ Hc). cbn [bind emb mean]. rewrite xsub_fin.
        destruct (HT (fst c) (i - 1) i) as (li & ri & -> & L1 & L2 & L3 & R1 & R2 & R3); [lia|]. exists li, ri. split; auto. split; [reflexivity|].
        split; [lia|]. split; [lia|]. split; [lia|].
        intros j e Hj He. right. exists c. split; [exact Hc|]. destruct (Nat.eq_dec j (i - 1)) as [->|Nj]; [congruence|]. apply (L2 j); auto. lia.
      + destruct (nth_some cs (i := i - 1)) as (c & Hc); [lia|]. destruct (nth_some cs (i := i)) as (c' & Hc'); [lia|].
        rewrite (nth_emb _ _ Hc), (nth_emb _ _ Hc'). cbn [bind emb mean]. rewrite !xsub_fin.
        assert (fst c <= fst c')%R as Hle by (apply (rsorted_nth HS (i := i - 1) (j := i)); auto; lia).
        destruct (fle _ _) eqn:Hf; [|exfalso; assert (fle (XFin (fst c - x)) (XFin (fst c' - x)) = true) by (apply xle_b; lra); congruence].
        destruct (HT (fst c) i (S i)) as (li & ri & -> & L1 & L2 & L3 & R1 & R2 & R3); [lia|]. exists li, ri. split; auto. split; [reflexivity|].
        split. { destruct (Nat.eq_dec li i) as [->|]; [|lia]. exfalso. apply (L3 c); auto. lia. }
        split; [lia|]. split; [lia|].
        intros j e Hj He. destruct (Nat.eq_dec j i) as [->|Nj]; [auto|]. right. exists c. split; [exact Hc|].
        destruct (Nat.lt_ge_cases j i) as [Lj|Lj]; [apply (L2 j); auto; lia|].
        destruct (nth_some cs (i := ri)) as (f & Hff); [lia|]. replace ri with (S (ri - 1)) in Hff by lia.
        assert (fst f = fst c) as Ef by (apply (R2 (ri - 1)); auto; lia).
        assert (fst c <= fst e)%R by (apply (rsorted_nth HS (i := i - 1) (j := j)); auto; lia).
        assert (fst e <= fst f)%R by (apply (rsorted_nth HS (i := j) (j := S (ri - 1))); auto; lia). lra.
  Qed.

  Local Open Scope R_scope.
  Definition nearest (cs : list rcen) (x : R) (c : rcen) : Prop := In c cs /\ forall d, In d cs -> Rabs (fst c - x) <= Rabs (fst d - x).

  Lemma cut_nearest cs x i : cs <> [] -> rsorted cs -> cut cs x i ->
    exists j c, ((i - 1 <= j)%nat /\ (j < Nat.min (S i) (length cs))%nat) /\ nth_error cs j = Some c /\ nearest cs x c.
  Proof.
    intros Hne HS (Hi & C1 & C2).
    assert (1 <= length cs)%nat as Hlen by (destruct cs; [congruence|cbn; lia]).
    assert (forall c, nth_error cs (i - 1) = Some c -> (0 < i)%nat -> forall d j, (j < i)%nat -> nth_error cs j = Some d -> Rabs (fst c - x) <= Rabs (fst d - x)) as HL.
    { intros c Hc H0 d j Hj Hd. assert (fst c <= x) by (apply (C1 (i - 1)%nat); auto; lia). assert (fst d <= x) by (apply (C1 j); auto).
      assert (fst d <= fst c) by (apply (rsorted_nth HS (i := j) (j := i - 1)); auto; lia). rewrite !Rabs_left1 by lra. lra. }
    assert (forall c, nth_error cs i = Some c -> forall d j, (i <= j)%nat -> nth_error cs j = Some d -> Rabs (fst c - x) <= Rabs (fst d - x)) as HR.
    { intros c Hc d j Hj Hd. assert (x <= fst c) by (apply (C2 i); auto). assert (x <= fst d) by (apply (C2 j); auto).
      assert (fst c <= fst d) by (apply (rsorted_nth HS (i := i) (j := j)); auto). rewrite !Rabs_right by lra. lra. }
    destruct (Nat.eq_dec i 0) as [->|N0].
    - destruct (nth_some cs (i := 0%nat)) as (c & Hc); [lia|]. exists 0%nat, c. split; [lia|]. split; auto. split; [eapply nth_error_In, Hc|].
      intros d Hd. apply In_nth_error in Hd as (j & Hj). apply (HR c Hc d j); auto. lia.
    - destruct (nth_some cs (i := i - 1)) as (c & Hc); [lia|]. specialize (HL c Hc ltac:(lia)).
      destruct (Nat.eq_dec i (length cs)) as [E|N1].
      + exists (i - 1)%nat, c. split; [lia|]. split; auto. split; [eapply nth_error_In, Hc|].
        intros d Hd. apply In_nth_error in Hd as (j & Hj). apply (HL d j); auto. assert (j < length cs)%nat by (apply nth_error_Some; congruence). lia.
      + destruct (nth_some cs (i := i)) as (c' & Hc'); [lia|]. specialize (HR c' Hc').
        destruct (Rle_dec (Rabs (fst c - x)) (Rabs (fst c' - x))) as [Hle|Hgt].
        * exists (i - 1)%nat, c. split; [lia|]. split; auto. split; [eapply nth_error_In, Hc|].
          intros d Hd. apply In_nth_error in Hd as (j & Hj). destruct (Nat.lt_ge_cases j i) as [L|L]; [apply (HL d j); auto|].
          specialize (HR d j L Hj). lra.
        * exists i, c'. split; [lia|]. split; auto. split; [eapply nth_error_In, Hc'|].
          intros d Hd. apply In_nth_error in Hd as (j & Hj). destruct (Nat.lt_ge_cases j i) as [L|L]; [|apply (HR d j); auto].
          specialize (HL d j L Hj). lra.
  Qed.

  (** ** C27 *)
  Theorem closest_exact tick cs x : cs <> [] -> rsorted cs ->
    exists li ri, find_closest cfg tick (map emb cs) (XFin x) = Ret (Some (li, ri)) /\ (li < ri <= length cs)%nat /\
      (exists j c, (li <= j < ri)%nat /\ nth_error cs j = Some c /\ nearest cs x c) /\
      (forall j c d, (li <= j < ri)%nat -> nth_error cs j = Some c -> In d cs -> ~ (fst c < fst d < x) /\ ~ (x < fst d < fst c)).
  Proof.
    intros Hne HS. destruct (@find_closest_exact tick cs x Hne HS) as (i & li & ri & HC & E & H1 & H2 & H3 & H4).
    exists li, ri. split; [exact E|]. split; [lia|]. split.
    - destruct (cut_nearest Hne HS HC) as (j & c & Hj & Hc & HN). exists j, c. split; auto. lia.
    - intros j c d Hj Hc Hd. destruct HC as (Hi & C1 & C2). apply In_nth_error in Hd as (k & Hk).
      assert (j < length cs)%nat as Lj by (apply nth_error_Some; congruence).
      (* the centroid is index i, or equal to index i-1 *)
      assert (exists j', (i - 1 <= j' <= i)%nat /\ exists c', nth_error cs j' = Some c' /\ fst c = fst c') as (j' & Hj' & c' & Hc' & Ec).
      { destruct (H4 j c Hj Hc) as [->|(e & He & Ee)]; [exists i|exists (i - 1)%nat]; split; try lia; eauto. }
      rewrite Ec. clear c Ec Hc. destruct (Nat.lt_ge_cases j' i) as [L|L].
      + assert (fst c' <= x) by (apply (C1 j'); auto). split; [|lra]. intros [A B]. destruct (Nat.lt_ge_cases k i) as [Lk|Lk].
        * assert (fst d <= fst c') by (apply (rsorted_nth HS (i := k) (j := j')); auto; lia). lra.
        * assert (x <= fst d) by (apply (C2 k); auto). lra.
      + assert (x <= fst c') by (apply (C2 j'); auto). split; [lra|]. intros [A B]. destruct (Nat.lt_ge_cases k i) as [Lk|Lk].
        * assert (fst d <= x) by (apply (C1 k); auto). lra.
        * assert (fst c' <= fst d) by (apply (rsorted_nth HS (i := j') (j := k)); auto; lia). lra.
  Qed.

  (** ** C26: one cluster into strictly ascending centroids *)
  Lemma skipn_nth {A} (l : list A) k c : In c (skipn k l) -> exists j, (k <= j)%nat /\ nth_error l j = Some c.
  Proof.
    intros H. apply In_nth_error in H as (j & Hj). exists (k + j)%nat. split; [lia|].
    rewrite <- Hj. clear. revert l. induction k as [|k IH]; intros [|a l]; cbn; auto. now destruct j.
  Qed.
  Lemma firstn_nth {A} (l : list A) k c : In c (firstn k l) -> exists j, (j < k)%nat /\ nth_error l j = Some c.
  Proof.
    revert k. induction l as [|a l IH]; intros [|k]; cbn [firstn]; intros []; [exists 0%nat; subst; split; [lia|reflexivity]|].
    destruct (IH k H) as (j & Hj & E). exists (S j). split; [lia|exact E].
  Qed.
  Lemma rsorted_firstn cs k : rsorted cs -> rsorted (firstn k cs).
  Proof. intros H. rewrite <- (firstn_skipn k cs) in H. now apply rsorted_app in H. Qed.
  Lemma rsorted_skipn cs k : rsorted cs -> rsorted (skipn k cs).
  Proof. intros H. rewrite <- (firstn_skipn k cs) in H. now apply rsorted_app in H. Qed.

  Lemma place_sorted (cs : list rcen) (x : rcen) (i j : nat) (m : rcen) :
    ascending cs -> Forall pos cs -> pos x -> cut cs (fst x) i -> (j = i \/ S j = i) -> nth_error cs j = Some m ->
    rsorted (firstn j cs ++ ravg [m; x] :: skipn (S j) cs).
  Proof.
    intros HA HP Hx (Hi & C1 & C2) Hj Hm. pose proof (ascending_rsorted HA) as HS.
    assert (pos m) as Hpm by (rewrite Forall_forall in HP; apply HP; eapply nth_error_In, Hm).
    assert (Rmin (fst m) (fst x) <= fst (ravg [m; x]) <= Rmax (fst m) (fst x)) as HB.
    { apply pair_avg; auto; split; auto using Rmin_l, Rmin_r, Rmax_l, Rmax_r. }
    apply rsorted_mid; auto using rsorted_firstn, rsorted_skipn.
    - intros c Hc. apply firstn_nth in Hc as (k & Hk & Hc).
      assert (fst c < fst m) by (apply (ascending_nth HA (i := k) (j := j)); auto).
      assert (fst c <= fst x) by (apply (C1 k); auto; lia).
      eapply Rle_trans; [|apply HB]. apply Rmin_glb; lra.
    - intros c Hc. apply skipn_nth in Hc as (k & Hk & Hc).
      assert (fst m < fst c) by (apply (ascending_nth HA (i := j) (j := k)); auto; lia).
      assert (fst x <= fst c) by (apply (C2 k); auto; lia).
      eapply Rle_trans; [apply HB|]. apply Rmax_lub; lra.
  Qed.

  Theorem cluster_one_sorted g lim s cs lo hi total x : fmul g (tc_cf cfg) = XFin lim -> -1 < lim < IZR (2 ^ 64) ->
    cinv s cs lo hi -> ascending cs -> pos x -> lo <= fst x <= hi ->
    exists s' cs' t', cluster_one cfg g (s, total) (emb x) = Ret (s', t') /\ t_centroids s' = map emb cs' /\ rsorted cs'.
  Proof.
    intros Hlim Hl HI HA Hx Hr. pose proof HI as [I1 I2 I3 I4 I5]. pose proof (ascending_rsorted HA) as HS.
    assert (exists rs k, rsorted rs /\ Forall pos rs /\ Forall (fun c => lo <= fst c <= hi) rs /\ rs <> [] /\
      cluster_one cfg g (s, total) (emb x) = after_place cfg g s (fadd total (weight (emb x))) (map emb rs) k) as (rs & k & R1 & R2 & R3 & R4 & ->).
    { unfold cluster_one. rewrite I1.
      assert (forall tk j, cut cs (fst x) j -> exists rs k, rsorted rs /\ Forall pos rs /\ Forall (fun c => lo <= fst c <= hi) rs /\ rs <> [] /\
        {| t_centroids := firstn j (map emb cs) ++ emb x :: skipn j (map emb cs); t_min := t_min s; t_max := t_max s; t_tick := tk |} =
        {| t_centroids := map emb rs; t_min := t_min s; t_max := t_max s; t_tick := k |}) as Hins.
      { intros tk j (Hj & C1 & C2). exists (firstn j cs ++ x :: skipn j cs), tk.
        assert (Forall (fun c => lo <= fst c <= hi) (firstn j cs ++ skipn j cs)) as HB by now rewrite firstn_skipn.
        assert (Forall pos (firstn j cs ++ skipn j cs)) as HPs by now rewrite firstn_skipn.
        apply Forall_app in HB as [B1 B2]. apply Forall_app in HPs as [P1 P2].
        split; [|split; [|split; [|split]]].
        - apply rsorted_mid; auto using rsorted_firstn, rsorted_skipn.
          + intros c Hc. apply firstn_nth in Hc as (q & Hq & Hc). now apply (C1 q).
          + intros c Hc. apply skipn_nth in Hc as (q & Hq & Hc). now apply (C2 q).
        - apply Forall_app; auto.
        - apply Forall_app; auto.
        - intros E. apply app_eq_nil in E as [_ ?]. discriminate.
        - f_equal. now rewrite map_app, firstn_map, skipn_map. }
      destruct cs as [|c0 cs0] eqn:Ecs.
      - exists [x]. eexists. split; [repeat constructor|]. split; [auto|]. split; [auto|]. split; [discriminate|].
        cbn [map find_closest bind binary_search vec_insert length Nat.leb firstn skipn app]. reflexivity.
      - assert (cs <> []) as Hne by congruence. rewrite <- Ecs in *. clear Ecs c0 cs0.
        destruct (@find_closest_exact (t_tick s) cs (fst x) Hne HS) as (i & li & ri & HC & E & H1 & H2 & H3 & H4).
        cbn [emb mean] in E |- *. rewrite E. cbn [bind].
        destruct (@pick_index_total xr xr_ops cfg (map emb cs) (emb x) total li ri) as (o & Eo & Ho); [lia|rewrite map_length; lia|].
        cbn [emb] in Eo. rewrite Eo. cbn [bind]. destruct o as [j|].
        + destruct (nth_some cs (i := j)) as (m & Hm); [lia|]. rewrite (nth_emb _ _ Hm). cbn [bind].
          assert (j = i \/ S j = i) as Hji.
          { destruct (H4 j m Ho Hm) as [->|(d & Hd & Ed)]; auto.
            destruct (Nat.lt_trichotomy j (i - 1)) as [L|[->|L]].
            - assert (fst m < fst d) by (apply (ascending_nth HA (i := j) (j := i - 1)); auto). lra.
            - destruct i; [left; reflexivity|right; lia].
            - assert (fst d < fst m) by (apply (ascending_nth HA (i := i - 1) (j := j)); auto). lra. }
          assert (pos m) as Hpm by (rewrite Forall_forall in I2; apply I2; eapply nth_error_In, Hm).
          assert (lo <= fst m <= hi) as Hrm by (rewrite Forall_forall in I3; apply I3; eapply nth_error_In, Hm).
          exists (firstn j cs ++ ravg [m; x] :: skipn (S j) cs). eexists.
          assert (cs = firstn j cs ++ m :: skipn (S j) cs) as Esp.
          { destruct (@split_at rcen cs j) as (m' & A & B); [lia|]. congruence. }
          rewrite Esp in I2, I3. apply Forall_app in I2 as [P1 P2]. apply Forall_app in I3 as [B1 B2].
          split; [eapply place_sorted; eauto; now rewrite Esp; apply Forall_app|].
          split; [apply Forall_app; split; auto; constructor; [|now inversion P2]|].
          { red. cbn [ravg snd]. apply Wt_pos; [apply Forall_cons; auto|discriminate]. }
          split; [apply Forall_app; split; auto; constructor; [|now inversion B2]; now apply pair_avg|].
          split; [intros E0; apply app_eq_nil in E0 as [_ ?]; discriminate|].
          rewrite (@set_nth_split _ (map emb cs) j) by (rewrite map_length; lia).
          rewrite map_app. cbn [map]. rewrite <- cen_add_emb by auto. rewrite <- firstn_map, <- skipn_map. reflexivity.
        + destruct (@search_exact (S (t_tick s)) cs (fst x) HS) as (j & -> & HCj). cbn [bind]. unfold vec_insert. rewrite map_length.
          destruct (Nat.leb_spec j (length cs)) as [Lj|Lj]; [|destruct HCj; lia]. cbn [bind].
          destruct (Hins (S (S (t_tick s))) j HCj) as (rs & k & R1 & R2 & R3 & R4 & E2).
          exists rs, k. repeat (split; [assumption|]). unfold set_centroids. cbn [t_centroids t_min t_max t_tick]. injection E2 as E2 E3. subst k. cbn [emb] in E2. rewrite E2. reflexivity. }
    unfold after_place. destruct (lim_ok cfg g Hlim Hl) as (kl & ->). cbn [bind].
    set (s' := {| t_centroids := map emb rs; t_min := t_min s; t_max := t_max s; t_tick := k |}).
    assert (cinv s' rs lo hi) as HI' by (constructor; auto).
    destruct (kl <? _)%nat.
    - unfold td_add_buffer. cbn [map]. destruct (@remerge_pos cfg Hlib s' rs [] lo hi HI') as (s2 & cs2 & E & A1 & A2 & A3 & A4 & A5); try constructor; auto.
      cbn [map] in E. rewrite E. cbn [bind]. exists s2, cs2. eexists. split; [reflexivity|]. split; [apply A1|exact A2].
    - exists s', rs. eexists. split; [reflexivity|]. split; [reflexivity|exact R1].
  Qed.
End Order.

(* ------------------------------------------------------------------ *)
(** * Sequences of add_buffer and add_cluster calls *)
Inductive call (F : Type) := Items (l : list F) | Clusters (xs : list (centroid F)) (growth : F).
Arguments Items {F} l.
Arguments Clusters {F} xs growth.

Section Calls.
  Context {F : Type} {FO : FloatOps F}.
  Variable cfg : tcfg F.
  Definition do_call (s : tdigest F) (c : call F) : M (tdigest F) :=
    match c with Items l => td_add_buffer cfg s l | Clusters xs g => add_cluster cfg s xs g end.
  Definition do_calls : tdigest F -> list (call F) -> M (tdigest F) := foldM do_call.
  (** the values given, each with its weight *)
  Definition given (c : call F) : list (centroid F) :=
    match c with Items l => map (fun x => Cen x f1) l | Clusters xs _ => xs end.
End Calls.

Section CallsAny.
  Context {F : Type} {FO : FloatOps F} {FL : FloatLaws F}.
  Variable cfg : tcfg F.
  Hypothesis Hlib : lib_ok cfg.

  Lemma do_call_enc s n its c zs : enc s n its -> wts (given c) zs -> clean (given c) ->
    whenever (fun s' => enc s' (n + sumZ zs) (its ++ map mean (given c))) (do_call cfg s c).
  Proof.
    intros He Hw Hc. destruct c as [l|xs g]; cbn [do_call given] in *; [|now apply add_cluster_enc].
    destruct He as [Hh Hcv]. unfold td_add_buffer. change (fun x => Cen x f1) with (@unit_cen F FO) in *.
    assert (map mean (map unit_cen l) = l) as El by (rewrite map_map; cbn [unit_cen mean]; apply map_id). rewrite El.
    assert (no_nan l) as Hn. { unfold clean in Hc. rewrite Forall_map in Hc. exact Hc. }
    assert (whenever (fun s' => (n + sumZ zs <= fint)%Z -> holds s' (n + sumZ zs)) (add_centroid_buffer cfg s (map unit_cen l))) as H1.
    { destruct (Z_le_gt_dec (n + sumZ zs) fint) as [L|L].
      - pose proof (sumZ_pos (wts_pos Hw)).
        eapply whenever_mono; [apply (@add_centroid_buffer_weight F FO FL cfg Hlib s n _ zs (Hh ltac:(lia)) Hw L)|]. auto.
      - eapply whenever_mono; [apply whenever_true|]. intros; lia. }
    assert (whenever (fun s' => covers s' (its ++ l)) (add_centroid_buffer cfg s (map unit_cen l))) as H2.
    { apply (@add_covers F FO FL cfg Hlib s its _ l Hcv Hn). intros x Hx. now apply in_map. }
    eapply whenever_mono; [exact (@whenever_and _ _ _ _ H1 H2)|]. intros a [A B]. split; auto.
  Qed.

  Lemma do_calls_enc cs : forall s n its zs, enc s n its -> wts (flat_map given cs) zs -> clean (flat_map given cs) ->
    whenever (fun s' => enc s' (n + sumZ zs) (its ++ map mean (flat_map given cs))) (do_calls cfg s cs).
  Proof.
    induction cs as [|c cs IH]; intros s n its zs He Hw Hc; cbn [flat_map] in *.
    - inversion Hw; subst. cbn [do_calls foldM whenever map sumZ fold_right]. now rewrite Z.add_0_r, app_nil_r.
    - apply wts_app_inv in Hw as (za & zb & -> & Ha & Hb). unfold clean in Hc. apply Forall_app in Hc as [Hc1 Hc2].
      unfold do_calls. cbn [foldM]. eapply whenever_bind; [apply (@do_call_enc s n its c za He Ha Hc1)|]. intros s' Hs'.
      rewrite sumZ_app, Z.add_assoc, map_app, app_assoc. now apply IH.
  Qed.

  (** ** C25, any arithmetic *)
  Theorem calls_weight cs zs :
    Forall2 (fun c z => fval (weight c) = XFin (IZR z) /\ (1 <= z)%Z) (flat_map given cs) zs ->
    Forall (fun c => fisnan (mean c) = false) (flat_map given cs) ->
    (fold_right Z.add 0 zs <= fint)%Z -> (fold_right Z.add 0 zs <= 2 ^ 53)%Z ->
    whenever (fun s => td_count s = Ret (fold_right Z.add 0%Z zs) /\ fval (total_weight s) = XFin (IZR (fold_right Z.add 0%Z zs)) /\
        forall c, In c (flat_map given cs) -> fle (t_min s) (mean c) = true /\ fle (mean c) (t_max s) = true)
      (do_calls cfg td_new cs).
  Proof.
    intros Hw Hc L1 L2. eapply whenever_mono; [apply (@do_calls_enc cs td_new 0%Z [] zs)|]; auto.
    - split; [intros _; exists []; split; [constructor|reflexivity]|]. split; [apply fmaxval_nn|]. split; [apply fminval_nn|]. intros x [].
    - intros s [Hh Hcv]. cbn [app] in Hcv. fold (sumZ zs) in *. rewrite Z.add_0_l in Hh. destruct (@holds_count F FO FL s _ (Hh L1) L1 L2) as [A B].
      split; [exact B|]. split; [exact A|]. intros c Hi. apply Hcv. now apply in_map.
  Qed.
End CallsAny.

Section CallsExact.
  Local Open Scope R_scope.
  Variable cfg : tcfg xr.
  Hypothesis Hlib : lib_ok cfg.

  (** a call with finite values, positive finite weights, and a growth limit that converts to an integer *)
  Definition call_of (its : list rcen) (c : call xr) : Prop :=
    match c with
    | Items l => l = map XFin (map fst its) /\ Forall (fun p => snd p = 1) its
    | Clusters xs g => xs = map emb its /\ Forall pos its /\ exists lim, fmul g (tc_cf cfg) = XFin lim /\ -1 < lim < IZR (2 ^ 64)
    end.

  Lemma do_call_fed s its l c : fed s its -> call_of l c -> exists s', do_call cfg s c = Ret s' /\ fed s' (its ++ l).
  Proof.
    intros HF HC. destruct c as [b|xs g]; cbn [do_call call_of] in *.
    - destruct HC as [-> H1]. unfold td_add_buffer.
      assert (map (@unit_cen xr xr_ops) (map XFin (map fst l)) = map emb l) as ->.
      { rewrite !map_map. apply map_ext_in. intros [a w] Hp. rewrite Forall_forall in H1. specialize (H1 _ Hp). cbn [fst snd] in *. subst w. reflexivity. }
      apply add_buffer_fed; auto. eapply Forall_impl; [|exact H1]. intros p Hp. red. rewrite Hp. lra.
    - destruct HC as (-> & H1 & lim & E & Hl). now apply (add_cluster_fed Hlib g E Hl).
  Qed.

  (** ** C25, exact arithmetic *)
  Theorem calls_exact cs itss : Forall2 call_of itss cs ->
    exists s, do_calls cfg td_new cs = Ret s /\
      (concat itss <> [] -> exists l lo hi, listed s l /\ sumR (map snd l) = sumR (map snd (concat itss)) /\
        sumR (map (fun p => fst p * snd p) l) = sumR (map (fun p => fst p * snd p) (concat itss)) /\
        t_min s = XFin lo /\ t_max s = XFin hi /\ leastR (map fst (concat itss)) lo /\ mostR (map fst (concat itss)) hi /\
        Forall (fun p => lo <= fst p <= hi /\ 0 < snd p) l).
  Proof.
    intros H.
    assert (forall itss cs s pre, Forall2 call_of itss cs -> fed s pre -> exists s', do_calls cfg s cs = Ret s' /\ fed s' (pre ++ concat itss)) as HH.
    { clear itss cs H. intros itss cs s pre H. revert s pre. induction H as [|l c itss cs Hc H IH]; intros s pre HF; cbn [concat].
      - exists s. rewrite app_nil_r. auto.
      - destruct (@do_call_fed s pre l c HF Hc) as (s1 & E1 & H1). destruct (IH s1 _ H1) as (s2 & E2 & H2). exists s2.
        unfold do_calls in *. cbn [foldM]. rewrite E1. cbn [bind]. rewrite E2. split; auto. now rewrite app_assoc. }
    destruct (HH itss cs td_new [] H fed_new) as (s & E & HF). exists s. split; [exact E|]. intros Hne. cbn [app] in HF.
    destruct HF as [(E0 & _)|(_ & l & lo & hi & I & _ & [S1 S2] & HW & HS)]; [congruence|].
    exists l, lo, hi. split; [exact (ci_cs I)|]. split; [exact HW|]. split; [exact HS|]. split; [exact (ci_min I)|]. split; [exact (ci_max I)|].
    split; [exact S1|]. split; [exact S2|]. pose proof (ci_rng I) as R1. pose proof (ci_pos I) as R2. rewrite Forall_forall in R1, R2 |- *. intros p Hp. split; [now apply R1|now apply R2].
  Qed.
End CallsExact.

Section SortedExact.
  Local Open Scope R_scope.
  Variable cfg : tcfg xr.
  Hypothesis Hlib : lib_ok cfg.

  (** ** C26, what holds *)
  Theorem add_one_cluster_sorted s l lo hi x g lim :
    listed s l -> StronglySorted (fun a b => fst a < fst b) l -> Forall (fun p => 0 < snd p) l ->
    t_min s = XFin lo -> t_max s = XFin hi -> Forall (fun p => lo <= fst p <= hi) l ->
    0 < snd x -> fmul g (tc_cf cfg) = XFin lim -> -1 < lim < IZR (2 ^ 64) ->
    exists s' l', add_cluster cfg s [Cen (XFin (fst x)) (XFin (snd x))] g = Ret s' /\ listed s' l' /\ StronglySorted (fun a b => fst a <= fst b) l'.
  Proof.
    intros H1 H2 H3 H4 H5 H6 Hx Hg Hl. unfold add_cluster, update_limits. cbn [map mean min_by_key max_by_key foldM liftM bind].
    rewrite H4, H5, xmin_fin, xmax_fin. set (s1 := {| t_centroids := _ |}).
    assert (cinv s1 l (Rmin (fst x) lo) (Rmax (fst x) hi)) as HI.
    { constructor; auto. eapply Forall_impl; [|exact H6]. intros p Hp. cbn beta in *. pose proof (Rmin_r (fst x) lo). pose proof (Rmax_r (fst x) hi). lra. }
    destruct (@cluster_one_sorted cfg Hlib g lim s1 l _ _ (total_weight s1) x Hg Hl HI H2 Hx) as (s' & l' & t' & E & A & B).
    { split; [apply Rmin_l|apply Rmax_l]. }
    unfold emb in E. rewrite E. cbn [bind]. exists s', l'. auto.
  Qed.

  Theorem buffer_sorts cs itss l : Forall2 (call_of cfg) itss cs ->
    exists s s' l', do_calls cfg td_new cs = Ret s /\ td_add_buffer cfg s (map XFin l) = Ret s' /\ listed s' l' /\ StronglySorted (fun a b => fst a <= fst b) l'.
  Proof.
    intros H.
    assert (forall itss cs s pre, Forall2 (call_of cfg) itss cs -> fed s pre -> exists s', do_calls cfg s cs = Ret s' /\ fed s' (pre ++ concat itss)) as HH.
    { clear itss cs H. intros itss cs s pre H. revert s pre. induction H as [|i c itss cs Hc H IH]; intros s pre HF; cbn [concat].
      - exists s. rewrite app_nil_r. auto.
      - destruct (@do_call_fed cfg Hlib s pre i c HF Hc) as (s1 & E1 & H1). destruct (IH s1 _ H1) as (s2 & E2 & H2). exists s2.
        unfold do_calls in *. cbn [foldM]. rewrite E1. cbn [bind]. rewrite E2. split; auto. now rewrite app_assoc. }
    destruct (HH itss cs td_new [] H fed_new) as (s & E & HF). exists s.
    assert (exists old, t_centroids s = map emb old /\ Forall pos old) as (old & O1 & O2).
    { destruct HF as [(_ & Ec & _)|(_ & old & lo & hi & I & _)]; [exists []; auto|]. exists old. split; [apply (ci_cs I)|apply (ci_pos I)]. }
    unfold td_add_buffer. rewrite units_emb.
    destruct (map ucen l ++ old) as [|c0 r0] eqn:Ene.
    - apply app_eq_nil in Ene as [E1 ->]. rewrite E1. cbn [map]. exists s, []. split; [exact E|]. split; [|split; [exact O1|constructor]].
      unfold add_centroid_buffer. rewrite O1. reflexivity.
    - assert (Forall pos (map ucen l)) as Hp. { apply Forall_map, Forall_forall. intros y _. red. cbn [ucen snd]. lra. }
      destruct (@merge_pos cfg Hlib s old (map ucen l) O1 O2 Hp) as (sr & rs & f & la & A1 & A2 & A3 & A4 & A5 & A6 & A7 & ->); [rewrite Ene; discriminate|].
      eexists. exists (map ravg rs). split; [exact E|]. split; [reflexivity|]. split; [reflexivity|]. apply ravg_sorted_pos; auto. now rewrite A3.
  Qed.
End SortedExact.
