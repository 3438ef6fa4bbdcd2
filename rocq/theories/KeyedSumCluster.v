(** add_cluster_tree: weights, sums, extremes and order, for every shuffle. *)
From Coq Require Import List Arith ZArith Lia Bool Permutation Sorted Reals Lra.
From Flocq Require Import Core.
From Verif Require Import Base Floats XReal Digest TDigest KeyedSumTree Spec FloatFacts TDigestProofs TDigestProofs2 TDigestExact TDigestHist TDigestTop TDigestCluster KeyedSumProofs KeyedSumProofs2.
Set Implicit Arguments.

Section Any.
  Context {F : Type} {FO : FloatOps F} {FL : FloatLaws F}.
  Notation cen := (centroid F).
  Variable cfg : tcfg F.

  (** sorted, and the size right *)
  Definition good (t : ktree F) : Prop := asc (sorted_vec_key t) /\ kt_size t = length (sorted_vec_key t).
  Lemma good_new : good kt_new.
  Proof. split; [constructor|reflexivity]. Qed.

  Lemma insert_good t k w : good t -> whenever (fun t' => good t' /\ Permutation (sorted_vec_key t') (Cen k w :: sorted_vec_key t)) (kt_insert t k w).
  Proof.
    intros [HA HS]. unfold kt_insert. destruct (@node_insert_cases F FO FL (kt_root t) k w HA) as [[-> _]|(r & a & b & -> & H1 & H2 & H3 & H4)]; [exact I|].
    cbn [bind whenever]. unfold good, sorted_vec_key in *. cbn [kt_root kt_size]. rewrite HS, H1, H2, !app_length in *. cbn [length]. split.
    - split; [|lia]. apply asc_app in HA as (A1 & A2 & A3). apply asc_mid. auto.
    - symmetry. apply Permutation_middle.
  Qed.

  Lemma from_good l : whenever (fun t => good t /\ Permutation (sorted_vec_key t) l) (kt_from l).
  Proof.
    unfold kt_from. assert (forall t, good t -> whenever (fun t' => good t' /\ Permutation (sorted_vec_key t') (sorted_vec_key t ++ l))
      (foldM (fun t c => kt_insert t (mean c) (weight c)) t l)) as H.
    { induction l as [|c l IH]; intros t Ht; cbn [foldM].
      - cbn [whenever]. rewrite app_nil_r. auto.
      - eapply whenever_bind; [apply (insert_good (mean c) (weight c) Ht)|]. intros t1 [H1 H2]. eapply whenever_mono; [apply (IH t1 H1)|].
        intros t2 [H3 H4]. split; [exact H3|]. rewrite H4, H2. destruct c as [m w]. cbn [mean weight]. cbn [app]. apply Permutation_middle. }
    eapply whenever_mono; [apply (H kt_new good_new)|]. intros t [H1 H2]. split; [exact H1|exact H2].
  Qed.

  Lemma path_in t x : whenever (fun p => forall c, In c p -> In c (node_vec t) /\ fisnan (mean c) = false) (node_path t x).
  Proof.
    induction t as [|k0 w0 s0 l IHl r IHr]; [intros c []|]. cbn [node_path].
    destruct (cmp_cases x k0) as [[-> _]|[[-> H]|[[-> H]|[-> H]]]]; cbn [bind]; [exact I| | |].
    - eapply whenever_bind; [exact IHl|]. intros p Hp. cbn [whenever]. intros c [<-|Hc]; cbn [node_vec mean].
      + split; [apply in_or_app; right; left; auto|]. now apply flt_nn_r in H.
      + destruct (Hp c Hc). split; [apply in_or_app|]; auto.
    - intros c [<-|[]]. cbn [node_vec mean]. split; [apply in_or_app; right; left; auto|]. apply feq_sym, feq_iff in H as [_ H]. now apply fisnan_false.
    - eapply whenever_bind; [exact IHr|]. intros p Hp. cbn [whenever]. intros c [<-|Hc]; cbn [node_vec mean].
      + split; [apply in_or_app; right; left; auto|]. now apply flt_nn_l in H.
      + destruct (Hp c Hc). split; [apply in_or_app; right; right|]; auto.
  Qed.

  Lemma closest_in t x : whenever (fun l => forall c, In c l -> In c (sorted_vec_key t) /\ fisnan (mean c) = false) (closest_keys t x).
  Proof.
    unfold closest_keys, sorted_vec_key. pose proof (path_in (kt_root t) x) as HP. destruct (kt_root t) as [|k0 w0 s0 l r]; [intros c []|].
    eapply whenever_bind; [exact HP|]. intros p Hp. eapply whenever_bind; [apply whenever_true|]. intros om _. eapply whenever_bind; [apply whenever_true|].
    intros m _. cbn [whenever]. intros c Hc. apply filter_In in Hc as [Hc _]. auto.
  Qed.

  Lemma pick_in t total x l : whenever (fun o => forall c, o = Some c -> In c l) (pick_close cfg t total x l).
  Proof.
    unfold pick_close. set (f := fun best c => _).
    assert (forall l0 best, (forall c, best = Some c -> In c l) -> (forall c, In c l0 -> In c l) -> whenever (fun o => forall c, o = Some c -> In c l) (foldM f best l0)) as H.
    { induction l0 as [|c l0 IH]; intros best Hb Hl; cbn [foldM]; [exact Hb|].
      eapply whenever_bind with (P := fun o => forall c, o = Some c -> In c l); [|intros b Hb'; apply IH; auto; intros; apply Hl; right; auto].
      unfold f. cbv zeta. eapply whenever_bind; [apply whenever_true|]. intros ls _.
      destruct (flt _ f1); [|exact Hb]. destruct best as [o|].
      - cbn [whenever]. destruct (fgt _ _); [|exact Hb]. intros c0 E. injection E as <-. apply Hl. left; auto.
      - cbn [whenever]. intros c0 E. injection E as <-. apply Hl. left; auto. }
    apply H; [discriminate|auto].
  Qed.

  (** one centroid merged with the cluster, or the cluster added *)
  Definition absorbs (l : list cen) (x : cen) (l' : list cen) : Prop :=
    Permutation l' (x :: l) \/ exists c rest, Permutation l (c :: rest) /\ Permutation l' (cen_add c x :: rest).

  Lemma asc_unique a c b d : asc (a ++ c :: b) -> In d (a ++ c :: b) -> feq (mean d) (mean c) = true -> d = c.
  Proof.
    intros HA Hd Hf. apply asc_mid in HA as (_ & _ & H1 & H2). apply feq_not_flt in Hf as [N1 N2].
    apply in_app_or in Hd as [Hd|[Hd|Hd]]; [apply H1 in Hd|auto|apply H2 in Hd]; unfold klt in Hd; congruence.
  Qed.

  Lemma place_good t total x : good t -> whenever (fun t' => good t' /\ absorbs (sorted_vec_key t) x (sorted_vec_key t')) (tree_place cfg t total x).
  Proof.
    intros Hg. assert (whenever (fun t' => good t' /\ absorbs (sorted_vec_key t) x (sorted_vec_key t')) (kt_insert t (mean x) (weight x))) as Hins.
    { eapply whenever_mono; [apply (insert_good (mean x) (weight x) Hg)|]. intros t' [H1 H2]. split; [exact H1|]. left. destruct x; exact H2. }
    unfold tree_place. eapply whenever_bind; [apply closest_in|]. intros close Hc. destruct close as [|c0 cl]; [exact Hins|].
    eapply whenever_bind; [apply pick_in|]. intros [c|] Ho; [|exact Hins]. destruct (Hc c (Ho c eq_refl)) as [Hin Hnn].
    destruct Hg as [HA HS].
    eapply whenever_bind with (P := fun t' => good t' /\ Permutation (sorted_vec_key t) (c :: sorted_vec_key t')).
    - unfold kt_delete. destruct (@node_delete_cases F FO FL (kt_root t) (mean c) HA) as [[-> _]|(r & -> & [[H1 H2]|(a & d & b & H1 & H2 & H3)])]; [exact I| |].
      + pose proof (H2 c Hin) as E. rewrite (feq_refl _ Hnn) in E. discriminate.
      + cbn [bind]. destruct (kt_size t) as [|n] eqn:En; [exact I|]. cbn [whenever]. unfold good, sorted_vec_key in *. cbn [kt_root kt_size].
        rewrite H1 in *. assert (c = d) by (eapply asc_unique; eauto). subst d. rewrite H3. rewrite app_length in *. cbn [length] in *. split; [split|].
        * apply asc_mid in HA as (A1 & A2 & A3 & A4). apply asc_app. repeat split; auto. intros u v Hu Hv. eapply klt_trans; [apply A3|apply A4]; auto.
        * lia.
        * symmetry. apply Permutation_middle.
    - intros t1 [H1 H2]. eapply whenever_mono; [apply insert_good, H1|]. intros t2 [H3 H4]. split; [exact H3|]. right. exists c, (sorted_vec_key t1).
      split; [exact H2|exact H4].
  Qed.
End Any.

Section Weights.
  Context {F : Type} {FO : FloatOps F} {FL : FloatLaws F}.
  Notation cen := (centroid F).
  Variable cfg : tcfg F.
  Hypothesis Hlib : lib_ok cfg.
  Variable shuffle : nat -> list cen -> list cen.
  Hypothesis Hshuf : forall n l, Permutation (shuffle n l) l.

  Definition weighs (l : list cen) (n : Z) : Prop := (n <= fint)%Z -> exists zs, wts l zs /\ sumZ zs = n.
  Lemma weighs_perm l l' n : Permutation l l' -> weighs l n -> weighs l' n.
  Proof. intros HP H L. destruct (H L) as (zs & W & <-). destruct (wts_perm HP W) as (z2 & W2 & Hz). exists z2. split; auto. symmetry. apply (sumZ_perm Hz). Qed.
  Lemma absorbs_weighs l x l' n z : absorbs l x l' -> weighs l n -> fval (weight x) = XFin (IZR z) -> (1 <= z)%Z -> weighs l' (n + z).
  Proof.
    intros HA HW Hx Hz L. destruct (HW ltac:(lia)) as (zs & W & <-). destruct HA as [HP|(c & rest & H1 & H2)].
    - destruct (@wts_perm _ _ _ (x :: l) l' (z :: zs)) as (z2 & W2 & Hp2); [now symmetry|constructor; auto|].
      exists z2. split; auto. rewrite <- (sumZ_perm Hp2), sumZ_cons. lia.
    - destruct (wts_perm H1 W) as (z1 & W1 & Hp1). rewrite (sumZ_perm Hp1) in *. inversion W1 as [|? zc ? zr [E1 E2] W3]; subst. rewrite sumZ_cons in *.
      pose proof (sumZ_pos (wts_pos W3)).
      destruct (@wts_perm _ _ _ (cen_add c x :: rest) l' ((zc + z)%Z :: zr)) as (z2 & W2 & Hp2); [now symmetry| |].
      + constructor; [|exact W3]. split; [|lia]. cbn [cen_add weight]. rewrite (fadd_fin E1 Hx), <- plus_IZR. apply frnd_exact, fint_exact. lia.
      + exists z2. split; auto. rewrite <- (sumZ_perm Hp2), sumZ_cons. lia.
  Qed.

  Definition tinv (st : tdigest F * ktree F * F * nat) (n : Z) (its : list F) : Prop :=
    let '(s, t, _, _) := st in good t /\ weighs (sorted_vec_key t) n /\ covers s its.

  Lemma remerge_weighs s1 n its : weighs (t_centroids s1) n -> covers s1 its ->
    whenever (fun s2 => weighs (t_centroids s2) n /\ covers s2 its) (td_add_buffer cfg s1 []).
  Proof.
    intros HW HC. unfold td_add_buffer. cbn [map].
    assert (whenever (fun s'' => weighs (t_centroids s'') n) (add_centroid_buffer cfg s1 [])) as H1.
    { destruct (Z_le_gt_dec n fint) as [L|L].
      - eapply whenever_mono; [apply (@add_centroid_buffer_weight F FO FL cfg Hlib s1 n [] [] (HW L)); [constructor|cbn; lia]|].
        intros a Ha _. cbn [sumZ fold_right] in Ha. now rewrite Z.add_0_r in Ha.
      - eapply whenever_mono; [apply whenever_true|]. intros a _ ?. lia. }
    assert (whenever (fun s'' => covers s'' its) (add_centroid_buffer cfg s1 [])) as H2.
    { eapply whenever_mono; [apply (@add_covers F FO FL cfg Hlib s1 its [] [] HC); [constructor|intros ? []]|].
      intros a. now rewrite app_nil_r. }
    exact (@whenever_and _ _ _ _ H1 H2).
  Qed.

  Lemma tree_one_inv g st x n z its : tinv st n its -> fval (weight x) = XFin (IZR z) -> (1 <= z)%Z ->
    whenever (fun st' => tinv st' (n + z) its) (tree_one cfg shuffle g st x).
  Proof.
    destruct st as [[[s t] total] k]. intros (Hg & HW & HC) Hx Hz. unfold tree_one.
    eapply whenever_bind; [apply (place_good cfg total x Hg)|]. intros t' [Hg' HA]. cbv zeta.
    pose proof (absorbs_weighs HA HW Hx Hz) as HW'.
    eapply whenever_bind; [apply whenever_true|]. intros lim _. destruct (lim <? kt_size t'); [|cbn [whenever tinv]; auto].
    eapply whenever_bind; [apply (@remerge_weighs {| t_centroids := sorted_vec_key t'; t_min := t_min s; t_max := t_max s; t_tick := t_tick s |} _ its HW' HC)|].
    intros s2 [H1 H2]. eapply whenever_bind; [apply from_good|]. intros t2 [H3 H4]. cbn [whenever tinv]. split; [exact H3|]. split; [|exact H2].
    eapply weighs_perm; [|exact H1]. symmetry. rewrite H4. apply Hshuf.
  Qed.

  Lemma tree_all_inv g xs : forall st zs n its, tinv st n its -> wts xs zs ->
    whenever (fun st' => tinv st' (n + sumZ zs) its) (foldM (tree_one cfg shuffle g) st xs).
  Proof.
    induction xs as [|x xs IH]; intros st zs n its Hi Hw.
    - inversion Hw; subst. cbn [foldM whenever sumZ fold_right]. now rewrite Z.add_0_r.
    - inversion Hw as [|? z ? zs' [Hx Hz] Hw']; subst. cbn [foldM].
      eapply whenever_bind; [apply (@tree_one_inv g st x n z its Hi Hx Hz)|]. intros st' Hi'.
      rewrite sumZ_cons, Z.add_assoc. now apply IH.
  Qed.

  Theorem tree_enc s n its xs zs g : enc s n its -> wts xs zs -> clean xs ->
    whenever (fun s' => enc s' (n + sumZ zs) (its ++ map mean xs) /\ StronglySorted (fun a b => flt (mean a) (mean b) = true) (t_centroids s'))
      (add_cluster_tree cfg shuffle s xs g).
  Proof.
    intros [Hh Hc] Hw Hx. unfold add_cluster_tree. destruct (update_limits_covers Hc Hx) as (s1 & -> & C1 & C2 & C3). cbn [bind].
    eapply whenever_bind; [apply from_good|]. intros t [Hg Hp].
    eapply whenever_bind; [apply (@tree_all_inv g xs (s1, t, total_weight s1, 1) zs n (its ++ map mean xs)); [|exact Hw]|].
    - split; [exact Hg|]. split; [|exact C1]. intros L. destruct (Hh L) as (z1 & W1 & <-).
      destruct (@wts_perm _ _ _ (t_centroids s) (sorted_vec_key t) z1) as (z2 & W2 & Hz); auto.
      + rewrite <- C2. symmetry. rewrite Hp. apply Hshuf.
      + exists z2. split; auto. symmetry. apply (sumZ_perm Hz).
    - intros [[[s2 t2] tot2] k2] (H1 & H2 & H3). cbn [whenever]. split; [|apply H1]. split; [|exact H3]. exact H2.
  Qed.
End Weights.

(* ------------------------------------------------------------------ *)
(** ** Calls of all three kinds *)
Section Calls.
  Context {F : Type} {FO : FloatOps F}.
  (** [Tree shuffle xs growth]: add_cluster_tree, the n-th shuffle of that call behaving like [shuffle n] *)
  Inductive tcall := Call (c : call F) | Tree (shuffle : nat -> list (centroid F) -> list (centroid F)) (xs : list (centroid F)) (growth_limit : F).
  Variable cfg : tcfg F.
  Definition do_tcall (s : tdigest F) (c : tcall) : M (tdigest F) :=
    match c with Call c => do_call cfg s c | Tree sh xs g => add_cluster_tree cfg sh s xs g end.
  Definition do_tcalls : tdigest F -> list tcall -> M (tdigest F) := foldM do_tcall.
  Definition tgiven (c : tcall) : list (centroid F) := match c with Call c => given c | Tree _ xs _ => xs end.
  Definition shuffles (c : tcall) : Prop := match c with Call _ => True | Tree sh _ _ => forall n l, Permutation (sh n l) l end.
End Calls.
Arguments tcall F : clear implicits.

Section CallsAny.
  Context {F : Type} {FO : FloatOps F} {FL : FloatLaws F}.
  Variable cfg : tcfg F.
  Hypothesis Hlib : lib_ok cfg.

  Lemma do_tcalls_enc cs : forall s n its zs, Forall (@shuffles F) cs -> enc s n its -> wts (flat_map tgiven cs) zs -> clean (flat_map tgiven cs) ->
    whenever (fun s' => enc s' (n + sumZ zs) (its ++ map mean (flat_map tgiven cs))) (do_tcalls cfg s cs).
  Proof.
    induction cs as [|c cs IH]; intros s n its zs Hs He Hw Hc; cbn [flat_map] in *.
    - inversion Hw; subst. cbn [do_tcalls foldM whenever map sumZ fold_right]. now rewrite Z.add_0_r, app_nil_r.
    - apply wts_app_inv in Hw as (za & zb & -> & Ha & Hb). unfold clean in Hc. apply Forall_app in Hc as [Hc1 Hc2].
      pose proof (Forall_inv Hs) as Hs0. apply Forall_inv_tail in Hs.
      unfold do_tcalls. cbn [foldM]. eapply whenever_bind with (P := fun s' => enc s' (n + sumZ za) (its ++ map mean (tgiven c))).
      + destruct c as [c|sh xs g]; cbn [do_tcall tgiven shuffles] in *; [now apply do_call_enc|].
        eapply whenever_mono; [apply tree_enc; eauto|]. intros a [H _]. exact H.
      + intros s' Hs'. rewrite sumZ_app, Z.add_assoc, map_app, app_assoc. now apply IH.
  Qed.

  (** ** C28, any arithmetic *)
  Theorem tcalls_weight cs zs : Forall (@shuffles F) cs ->
    Forall2 (fun c z => fval (weight c) = XFin (IZR z) /\ (1 <= z)%Z) (flat_map tgiven cs) zs ->
    Forall (fun c => fisnan (mean c) = false) (flat_map tgiven cs) ->
    (fold_right Z.add 0 zs <= fint)%Z -> (fold_right Z.add 0 zs <= 2 ^ 53)%Z ->
    whenever (fun s => td_count s = Ret (fold_right Z.add 0%Z zs) /\ fval (total_weight s) = XFin (IZR (fold_right Z.add 0%Z zs)) /\
        forall c, In c (flat_map tgiven cs) -> fle (t_min s) (mean c) = true /\ fle (mean c) (t_max s) = true)
      (do_tcalls cfg td_new cs).
  Proof.
    intros Hs Hw Hc L1 L2. eapply whenever_mono; [apply (@do_tcalls_enc cs td_new 0%Z [] zs)|]; auto.
    - split; [intros _; exists []; split; [constructor|reflexivity]|]. split; [apply fmaxval_nn|]. split; [apply fminval_nn|]. intros x [].
    - intros s [Hh Hcv]. cbn [app] in Hcv. fold (sumZ zs) in *. rewrite Z.add_0_l in Hh. destruct (@holds_count F FO FL s _ (Hh L1) L1 L2) as [A B].
      split; [exact B|]. split; [exact A|]. intros c Hi. apply Hcv. now apply in_map.
  Qed.

  (** the result of add_cluster_tree is in strictly ascending order, whatever the digest was *)
  Theorem tree_sorts s xs g sh :
    whenever (fun s' => StronglySorted (fun a b => flt (mean a) (mean b) = true) (t_centroids s')) (add_cluster_tree cfg sh s xs g).
  Proof.
    unfold add_cluster_tree. eapply whenever_bind; [apply whenever_true|]. intros s1 _.
    eapply whenever_bind; [apply from_good|]. intros t [Hg _].
    eapply whenever_bind with (P := fun st => good (snd (fst (fst st)))).
    - assert (forall st, good (snd (fst (fst st))) -> whenever (fun st' => good (snd (fst (fst st')))) (foldM (tree_one cfg sh g) st xs)) as H; [|now apply H].
      induction xs as [|x xs IH]; intros st H; cbn [foldM]; [exact H|]. eapply whenever_bind; [|exact IH].
      destruct st as [[[s2 t2] tot2] k2]. cbn [fst snd] in H. unfold tree_one. eapply whenever_bind; [apply (place_good cfg tot2 x H)|]. intros t' [Hg' _]. cbv zeta.
      eapply whenever_bind; [apply whenever_true|]. intros lim _. destruct (lim <? kt_size t'); [|exact Hg'].
      eapply whenever_bind; [apply whenever_true|]. intros s3 _. eapply whenever_bind; [apply from_good|]. intros t3 [Hg3 _]. exact Hg3.
    - intros [[[s2 t2] tot2] k2] H. apply H.
  Qed.
End CallsAny.

(* ------------------------------------------------------------------ *)
(** ** Exact arithmetic *)
Section Exact.
  Local Open Scope R_scope.
  Variable cfg : tcfg xr.
  Hypothesis Hlib : lib_ok cfg.
  Variable shuffle : nat -> list (centroid xr) -> list (centroid xr).
  Hypothesis Hshuf : forall n l, Permutation (shuffle n l) l.
  Local Instance FLx : FloatLaws xr := xr_laws (Z.le_refl 4096).

  Lemma perm_emb l cs : Permutation l (map emb cs) -> exists ds, l = map emb ds /\ Permutation ds cs.
  Proof. intros H. apply Permutation_map_inv in H as (ds & -> & Hp). exists ds. split; auto. now symmetry. Qed.
  Lemma emb_inj a b : emb a = emb b -> a = b.
  Proof. destruct a, b. unfold emb. cbn [fst snd]. congruence. Qed.

  Lemma absorbs_emb cs x l' : absorbs (map emb cs) (emb x) l' -> Forall pos cs -> pos x ->
    exists rs, l' = map emb rs /\ Forall pos rs /\ Wt rs = Wt cs + snd x /\ Sm rs = Sm cs + fst x * snd x /\ rs <> [] /\
      (forall lo hi, Forall (fun c => lo <= fst c <= hi) (x :: cs) -> Forall (fun c => lo <= fst c <= hi) rs).
  Proof.
    intros HA Hp Hx. destruct HA as [H|(c & rest & H1 & H2)].
    - change (emb x :: map emb cs) with (map emb (x :: cs)) in H. apply perm_emb in H as (rs & -> & HP). exists rs.
      rewrite (Wt_perm HP), (Sm_perm HP), Wt_cons, Sm_cons. split; [reflexivity|]. split; [eapply Permutation_Forall; [apply Permutation_sym, HP|constructor; auto]|].
      split; [lra|]. split; [lra|]. split; [intros ->; apply Permutation_nil in HP; discriminate|].
      intros lo hi H. eapply Permutation_Forall; [apply Permutation_sym, HP|exact H].
    - symmetry in H1. apply perm_emb in H1 as (ds & E & HP). destruct ds as [|d ds]; [discriminate|]. cbn [map] in E. injection E as -> ->.
      assert (Forall pos (d :: ds)) as Hpd by (eapply Permutation_Forall; [apply Permutation_sym, HP|exact Hp]).
      pose proof (Forall_inv Hpd) as Hd. apply Forall_inv_tail in Hpd.
      rewrite (cen_add_emb Hd Hx) in H2. change (emb (ravg [d; x]) :: map emb ds) with (map emb (ravg [d; x] :: ds)) in H2.
      apply perm_emb in H2 as (rs & -> & HP2). exists rs. rewrite (Wt_perm HP2), (Sm_perm HP2), <- (Wt_perm HP), <- (Sm_perm HP), !Wt_cons, !Sm_cons.
      assert (0 < snd d + snd x) as Hs by (unfold pos in *; lra).
      assert (snd (ravg [d; x]) = snd d + snd x) as E1. { unfold ravg. cbn [snd]. unfold Wt. cbn [map sumR fold_right]. lra. }
      assert (fst (ravg [d; x]) * snd (ravg [d; x]) = fst d * snd d + fst x * snd x) as E2.
      { rewrite E1. unfold ravg. cbn [fst]. unfold Wt, Sm. cbn [map sumR fold_right]. field. lra. }
      split; [reflexivity|]. split; [|split; [lra|split; [lra|split]]].
      + eapply Permutation_Forall; [apply Permutation_sym, HP2|]. constructor; auto. unfold pos. rewrite E1. exact Hs.
      + intros ->. apply Permutation_nil in HP2. discriminate.
      + intros lo hi H. pose proof (Forall_inv H) as Hx0. apply Forall_inv_tail in H.
        assert (Forall (fun c => lo <= fst c <= hi) (d :: ds)) as HH by (eapply Permutation_Forall; [apply Permutation_sym, HP|exact H]).
        eapply Permutation_Forall; [apply Permutation_sym, HP2|]. constructor; [|apply (Forall_inv_tail HH)]. apply pair_avg; auto. apply (Forall_inv HH).
  Qed.

  Definition xinv (st : tdigest xr * ktree xr * xr * nat) (w sm lo hi : R) : Prop :=
    let '(s, t, _, _) := st in good t /\ exists cs, sorted_vec_key t = map emb cs /\ Forall pos cs /\ Forall (fun c => lo <= fst c <= hi) cs /\
      t_min s = XFin lo /\ t_max s = XFin hi /\ Wt cs = w /\ Sm cs = sm.

  Lemma tree_one_exact g st x w sm lo hi : xinv st w sm lo hi -> pos x -> lo <= fst x <= hi ->
    whenever (fun st' => xinv st' (w + snd x) (sm + fst x * snd x) lo hi) (tree_one cfg shuffle g st (emb x)).
  Proof.
    destruct st as [[[s t] total] k]. intros (Hg & cs & E1 & E2 & E3 & E4 & E5 & E6 & E7) Hx Hr. unfold tree_one.
    eapply whenever_bind; [apply (place_good cfg total (emb x) Hg)|]. intros t' [Hg' HA]. cbv zeta. rewrite E1 in HA.
    destruct (absorbs_emb HA E2 Hx) as (rs & R1 & R2 & R3 & R4 & R5 & R6). specialize (R6 lo hi (Forall_cons x Hr E3)).
    eapply whenever_bind; [apply whenever_true|]. intros lim _. destruct (lim <? kt_size t').
    2:{ cbn [whenever xinv]. split; [exact Hg'|]. exists rs. repeat split; auto; lra. }
    set (s1 := {| t_centroids := _ |}). assert (cinv s1 rs lo hi) as HI by (constructor; auto).
    unfold td_add_buffer. change (map unit_cen []) with (map emb []).
    destruct (@remerge_pos cfg Hlib s1 rs [] lo hi HI) as (s2 & cs2 & -> & J1 & J2 & J3 & J4 & J5); [constructor|constructor|exact R5|]. cbn [bind].
    eapply whenever_bind; [apply from_good|]. intros t2 [H3 H4]. cbn [whenever xinv]. split; [exact H3|].
    assert (Permutation (sorted_vec_key t2) (map emb cs2)) as HP. { rewrite H4, Hshuf. now rewrite (ci_cs J1). }
    apply perm_emb in HP as (ds & -> & HP). exists ds. split; [reflexivity|].
    split; [eapply Permutation_Forall; [apply Permutation_sym, HP|apply (ci_pos J1)]|].
    split; [eapply Permutation_Forall; [apply Permutation_sym, HP|apply (ci_rng J1)]|].
    split; [apply (ci_min J1)|]. split; [apply (ci_max J1)|]. rewrite (Wt_perm HP), (Sm_perm HP), J4, J5. unfold Wt at 1, Sm at 1. cbn [map sumR fold_right]. split; lra.
  Qed.

  Lemma tree_all_exact g xs : forall st w sm lo hi, xinv st w sm lo hi -> Forall pos xs -> Forall (fun c => lo <= fst c <= hi) xs ->
    whenever (fun st' => xinv st' (w + Wt xs) (sm + Sm xs) lo hi) (foldM (tree_one cfg shuffle g) st (map emb xs)).
  Proof.
    induction xs as [|x xs IH]; intros st w sm lo hi Hi Hp Hr; cbn [map foldM].
    - cbn [whenever]. unfold Wt, Sm. cbn [map sumR fold_right]. now rewrite !Rplus_0_r.
    - eapply whenever_bind; [apply (@tree_one_exact g st x w sm lo hi Hi (Forall_inv Hp) (Forall_inv Hr))|]. intros st' Hi'.
      rewrite Wt_cons, Sm_cons, <- !Rplus_assoc. apply IH; auto; eapply Forall_inv_tail; eauto.
  Qed.

  (** ** C28 in exact arithmetic *)
  Theorem tree_fed s its xs g : fed s its -> Forall pos xs -> whenever (fun s' => fed s' (its ++ xs)) (add_cluster_tree cfg shuffle s (map emb xs) g).
  Proof.
    intros HF Hp. destruct xs as [|x0 xs0].
    - unfold add_cluster_tree. cbn [map]. unfold update_limits. cbn [map min_by_key max_by_key bind foldM]. rewrite app_nil_r. cbn [t_centroids t_min t_max t_tick].
      eapply whenever_bind; [apply from_good|]. intros t [Hg HP]. cbn [bind whenever].
      destruct HF as [(-> & E1 & E2 & E3)|(Hi & cs & lo & hi & [I1 I2 I3 I4 I5] & R0 & R1 & R2 & R3)].
      + left. cbn [t_centroids t_min t_max]. rewrite E2, E3. rewrite E1 in HP. rewrite Hshuf in HP. apply Permutation_sym, Permutation_nil in HP. auto.
      + right. split; auto. rewrite I1 in HP. rewrite Hshuf in HP. apply perm_emb in HP as (ds & Ed & HP). exists ds, lo, hi.
        rewrite (Wt_perm HP), (Sm_perm HP). split; [|split; [|auto]].
        * constructor; cbn [t_centroids t_min t_max]; auto; [| |rewrite I4; reflexivity|rewrite I5; reflexivity]; (eapply Permutation_Forall; [apply Permutation_sym, HP|assumption]).
        * intros ->. apply Permutation_nil in HP. auto.
    - set (xs := x0 :: xs0) in *. destruct (@update_limits_fed s its xs HF) as (s1 & cs & lo & hi & E & HI & [Hlo Hhi] & HW & HS); [discriminate|].
      unfold add_cluster_tree. rewrite E. cbn [bind]. eapply whenever_bind; [apply from_good|]. intros t [Hg HP].
      eapply whenever_bind; [apply (@tree_all_exact g xs (s1, t, total_weight s1, 1%nat) (Wt its) (Sm its) lo hi)|]; auto.
      + split; [exact Hg|]. rewrite (ci_cs HI), Hshuf in HP. apply perm_emb in HP as (ds & Ed & HP). exists ds. split; [exact Ed|].
        rewrite (Wt_perm HP), (Sm_perm HP).
        split; [eapply Permutation_Forall; [apply Permutation_sym, HP|apply (ci_pos HI)]|].
        split; [eapply Permutation_Forall; [apply Permutation_sym, HP|apply (ci_rng HI)]|].
        split; [apply (ci_min HI)|]. split; [apply (ci_max HI)|]. auto.
      + apply Forall_forall. intros c Hc. assert (In (fst c) (map fst (its ++ xs))) as Hin by (apply in_map, in_or_app; auto).
        split; [apply Hlo|apply Hhi]; auto.
      + intros [[[s2 t2] tot2] k2] (H1 & ds & D1 & D2 & D3 & D4 & D5 & D6 & D7). cbn [whenever]. right.
        assert (its ++ xs <> []) as Hne by (intros E0; apply app_eq_nil in E0 as [_ ?]; discriminate). split; [exact Hne|].
        exists ds, lo, hi. rewrite Wt_app, Sm_app. split; [constructor; auto|]. split; [|split; [split; auto|auto]].
        intros ->. pose proof (Wt_pos Hp ltac:(discriminate)). unfold Wt in D6 at 1. cbn [map sumR fold_right] in D6.
        assert (0 <= Wt its). { destruct HF as [(-> & _)|(_ & cs' & ? & ? & [_ P' _ _ _] & _ & _ & <- & _)]; [unfold Wt; cbn; lra|now apply Wt_pos_nn]. } lra.
  Qed.
End Exact.

Section CallsExact.
  Local Open Scope R_scope.
  Variable cfg : tcfg xr.
  Hypothesis Hlib : lib_ok cfg.

  Definition tcall_of (its : list rcen) (c : tcall xr) : Prop :=
    match c with Call c => call_of cfg its c | Tree sh xs _ => xs = map emb its /\ Forall pos its /\ forall n l, Permutation (sh n l) l end.

  Theorem tcalls_exact cs itss : Forall2 tcall_of itss cs ->
    whenever (fun s => concat itss <> [] -> exists l lo hi, listed s l /\ sumR (map snd l) = sumR (map snd (concat itss)) /\
        sumR (map (fun p => fst p * snd p) l) = sumR (map (fun p => fst p * snd p) (concat itss)) /\
        t_min s = XFin lo /\ t_max s = XFin hi /\ leastR (map fst (concat itss)) lo /\ mostR (map fst (concat itss)) hi /\
        Forall (fun p => lo <= fst p <= hi /\ 0 < snd p) l) (do_tcalls cfg td_new cs).
  Proof.
    intros H. assert (forall itss cs s pre, Forall2 tcall_of itss cs -> fed s pre -> whenever (fun s' => fed s' (pre ++ concat itss)) (do_tcalls cfg s cs)) as HH.
    { clear itss cs H. intros itss cs s pre H. revert s pre. induction H as [|i c itss cs Hc H IH]; intros s pre HF; cbn [concat].
      - cbn [do_tcalls foldM whenever]. now rewrite app_nil_r.
      - unfold do_tcalls. cbn [foldM]. eapply whenever_bind with (P := fun s' => fed s' (pre ++ i)).
        + destruct c as [c|sh xs g]; cbn [do_tcall tcall_of] in *.
          * destruct (@do_call_fed cfg Hlib s pre i c HF Hc) as (s1 & -> & H1). exact H1.
          * destruct Hc as (-> & Hp & Hs). now apply tree_fed.
        + intros s1 H1. rewrite app_assoc. now apply IH. }
    eapply whenever_mono; [apply (HH itss cs td_new [] H fed_new)|]. cbn [app]. intros s HF Hne.
    destruct HF as [(E & _)|(_ & l & lo & hi & [I1 I2 I3 I4 I5] & _ & [S1 S2] & W1 & W2)]; [contradiction|].
    exists l, lo, hi. split; [exact I1|]. split; [exact W1|]. split; [exact W2|]. repeat split; auto; try apply S1; try apply S2.
    rewrite Forall_forall in *. intros p Hp. split; [apply I3|apply I2]; auto.
  Qed.
End CallsExact.
