(** Which clusters add_cluster_tree (/repo/src/t_digest/t_digest.rs:443-520) joins; exact reals and the linear scale function k0. *)
From Coq Require Import List Arith ZArith Lia Bool Permutation Sorted Reals Lra.
From Flocq Require Import Core.
From Verif Require Import Base Floats XReal Digest TDigest ScaleFunctions KeyedSumTree Spec FloatFacts TDigestProofs TDigestProofs2 TDigestExact TDigestHist TDigestTop TDigestCluster KeyedSumProofs KeyedSumProofs2 KeyedSumCluster ClusterCap.
Set Implicit Arguments.
Local Open Scope R_scope.

(** ** Specification *)
(** the test made before [x] is joined to [c], [W] being the weight so far: it is about the joint mean, not the joint weight *)
Definition fits (cf W : R) (c x : R * R) : Prop := Rabs (fst (joined c x)) * cf < 2 * (W + snd x).
(** clusters at most 1/1000 further from [x] than the nearest one, which is among them *)
Definition nearest (l : list (R * R)) (x : R) (near : list (R * R)) : Prop :=
  incl near l /\ (exists m, In m near /\ forall d, In d l -> Rabs (fst m - x) <= Rabs (fst d - x)) /\
  forall c d, In c near -> In d l -> Rabs (fst c - x) < Rabs (fst d - x) + / 1000.

Inductive tplace (cf : R) (l : list (R * R)) (W : R) (x : R * R) (l' : list (R * R)) : Prop :=
| tplace_first : l = [] -> l' = [x] -> tplace cf l W x l'
| tplace_join near c rest : nearest l (fst x) near -> In c near -> fits cf W c x -> (forall d, In d near -> fits cf W d x -> load c <= load d) ->
    Permutation l (c :: rest) -> Permutation l' (joined c x :: rest) -> tplace cf l W x l'
| tplace_new near : nearest l (fst x) near -> (forall d, In d near -> ~ fits cf W d x) -> Permutation l' (x :: l) -> tplace cf l W x l'.

Inductive tplace_all (cf : R) : list (R * R) -> R -> list (R * R) -> list (R * R) -> Prop :=
| tplace_all_nil l W : tplace_all cf l W [] l
| tplace_all_cons l W x xs l1 l' : tplace cf l W x l1 -> tplace_all cf l1 (W + snd x) xs l' -> tplace_all cf l W (x :: xs) l'.

(* ------------------------------------------------------------------ *)
(** every weight and every sum is a number *)
Fixpoint finite_tree (t : tree xr) : Prop :=
  match t with Leaf => True | Node _ w s l r => (exists a, w = XFin a) /\ (exists a, s = XFin a) /\ finite_tree l /\ finite_tree r end.

Lemma insert_finite t k w : finite_tree t -> whenever finite_tree (node_insert t k (XFin w)).
Proof.
  induction t as [|k0 w0 s l IHl r IHr]; cbn [node_insert finite_tree].
  - intros _. cbn. eauto 6.
  - intros (H1 & [a ->] & H3 & H4). rewrite xadd_fin. destruct (flt k k0); [|destruct (flt k0 k); [|exact I]].
    + eapply whenever_bind; [apply IHl, H3|]. intros l' Hl. cbn. eauto 8.
    + eapply whenever_bind; [apply IHr, H4|]. intros l' Hl. cbn. eauto 8.
Qed.

Lemma rightmost_finite t : finite_tree t -> forall k w s t', rightmost_child t = Some (k, w, s, t') -> (exists a, w = XFin a) /\ (exists a, s = XFin a) /\ finite_tree t'.
Proof.
  induction t as [|k0 w0 s0 l IHl r IHr]; [discriminate|]. intros (H1 & H2 & H3 & H4) k w s t' E. destruct r as [|rk rw rs rl rr]; [discriminate|].
  cbn [rightmost_child] in E, IHr. revert E. destruct (rightmost_child (Node rk rw rs rl rr)) as [[[[mk mw] ms] r']|] eqn:Er; cbn [rightmost_child] in Er; rewrite Er.
  - intros [= -> -> -> <-]. destruct (IHr H4 k w s r' Er) as (J1 & J2 & J3). split; [exact J1|]. split; [exact J2|]. cbn. auto.
  - intros [= -> -> -> <-]. destruct H4 as (J1 & J2 & J3 & J4). split; [exact J1|]. split; [exact J2|]. cbn. auto.
Qed.

Lemma delete_finite t x : finite_tree t -> whenever finite_tree (node_delete t x).
Proof.
  induction t as [|k0 w0 s0 l IHl r IHr]; [intros _; exact I|]. intros (H1 & H2 & H3 & H4). cbn [node_delete].
  eapply whenever_bind; [apply whenever_true|]. intros c _. destruct c.
  - destruct l as [|lk lw ls ll lr]; [exact H4|]. destruct r as [|rk rw rs rl rr]; [exact H3|].
    destruct (rightmost_child (Node lk lw ls ll lr)) as [[[[mk mw] ms] l']|] eqn:Er; cbn [whenever].
    + destruct (@rightmost_finite _ H3 _ _ _ _ Er) as (J1 & J2 & J3). cbn. cbn in H4. tauto.
    + cbn in *. tauto.
  - eapply whenever_bind; [apply IHl, H3|]. intros l' Hl. cbn. auto.
  - eapply whenever_bind; [apply IHr, H4|]. intros l' Hl. cbn. auto.
Qed.

Lemma less_finite t x : finite_tree t -> forall acc, whenever (fun v => exists a, v = XFin a) (node_less t x (XFin acc)).
Proof.
  induction t as [|k0 w0 s0 l IHl r IHr]; intros HF acc; [cbn; eauto|]. destruct HF as ([a ->] & _ & H3 & H4). cbn [node_less].
  eapply whenever_bind; [apply whenever_true|]. intros c _. destruct c; [auto|auto|].
  destruct l as [|lk lw ls ll lr]; [rewrite xadd_fin; auto|]. destruct H3 as (_ & [b ->] & _). cbn [node_sum]. rewrite !xadd_fin. auto.
Qed.

Section Tree.
  Variable cfg : tcfg xr.
  Hypothesis Hlib : lib_ok cfg.
  Variable cf : R.
  Hypothesis Hk : tc_scale cfg = k0.
  Hypothesis Hcf : tc_cf cfg = XFin cf.
  Hypothesis Hcf0 : 0 < cf.
  Variable shuffle : nat -> list (centroid xr) -> list (centroid xr).
  Hypothesis Hshuf : forall n l, Permutation (shuffle n l) l.
  Let xlaws : FloatLaws xr := xr_laws (Z.le_refl 4096).
  #[local] Existing Instance xlaws.

  Definition tok (t : ktree xr) (cs : list rcen) : Prop := good t /\ finite_tree (kt_root t) /\ sorted_vec_key t = map emb cs.

  Lemma fits_test ls W c x : 0 <= W -> pos c -> pos x ->
    flt (fabs (k_size_from_weights cfg (mean (cen_add (emb x) (emb c))) (XFin ls) (fadd (XFin W) (weight (emb x))))) f1 = true <-> fits cf W c x.
  Proof.
    intros HW Hc Hx. rewrite cen_add_emb by auto.
    assert (ravg [x; c] = joined c x) as -> by (unfold joined, ravg, Sm, Wt; cbn; f_equal; [f_equal|]; lra).
    cbn [emb weight mean]. unfold k_size_from_weights. rewrite xadd_fin. unfold pos in *. assert (0 < W + snd x) as HT by lra.
    rewrite !xdiv_fin by lra. rewrite xadd_fin, Hk, Hcf. unfold k0. change (fk 2) with (XFin 2). rewrite !xmul_fin, !xdiv_fin by lra. rewrite xsub_fin.
    set (m := fst (joined c x)).
    replace ((ls / (W + snd x) + m / (W + snd x)) * cf / 2 - ls / (W + snd x) * cf / 2) with (m * (cf / (2 * (W + snd x)))) by (field; lra).
    assert (0 < cf / (2 * (W + snd x))) as Hq by (apply Rdiv_lt_0_compat; lra).
    match goal with |- flt ?a ?b = true <-> _ => assert (flt a b = true <-> xlt a b) as -> by (exact (@flt_iff xr _ xlaws a b)) end.
    rewrite xlt_iff. cbn [fabs xr_ops xabs f1]. change (Rabs (m * (cf / (2 * (W + snd x)))) < 1 <-> fits cf W c x).
    rewrite Rabs_mult, (Rabs_pos_eq (cf / _)) by lra. unfold fits. fold m. split; intros H.
    - apply Rmult_lt_compat_r with (r := 2 * (W + snd x)) in H; [|lra].
      replace (Rabs m * (cf / (2 * (W + snd x))) * (2 * (W + snd x))) with (Rabs m * cf) in H by (field; lra). lra.
    - apply Rmult_lt_reg_r with (r := 2 * (W + snd x)); [lra|].
      replace (Rabs m * (cf / (2 * (W + snd x))) * (2 * (W + snd x))) with (Rabs m * cf) by (field; lra). lra.
  Qed.

  Definition chosen (W : R) (x : rcen) (near : list rcen) (o : option (centroid xr)) : Prop :=
    match o with
    | Some e => exists c, e = emb c /\ In c near /\ fits cf W c x /\ forall d, In d near -> fits cf W d x -> load c <= load d
    | None => forall d, In d near -> ~ fits cf W d x
    end.

  Lemma pick_chosen t W x near : 0 <= W -> Forall pos near -> pos x -> finite_tree (kt_root t) ->
    whenever (chosen W x near) (pick_close cfg t (XFin W) (emb x) (map emb near)).
  Proof.
    intros HW Hn Hx HF. unfold pick_close. set (f := fun best c => _).
    assert (forall l0 done best, Forall pos l0 -> chosen W x done best -> whenever (chosen W x (done ++ l0)) (foldM f best (map emb l0))) as H.
    { induction l0 as [|c l0 IH]; intros done best Hp Hb; cbn [map foldM].
      - cbn. now rewrite app_nil_r.
      - pose proof (Forall_inv Hp) as Hc. apply Forall_inv_tail in Hp.
        eapply whenever_bind with (P := chosen W x (done ++ [c])).
        2:{ intros b Hb'. replace (done ++ c :: l0) with ((done ++ [c]) ++ l0) by (rewrite <- app_assoc; reflexivity). apply IH; auto. }
        unfold f. cbv zeta. unfold less_than_sum.
        eapply whenever_bind with (P := fun ls => exists a, match ls with Some v => v | None => f0 end = XFin a).
        { destruct (kt_root t) eqn:Er; [cbn [whenever]; exists 0; reflexivity|]. unfold liftM. eapply whenever_bind; [apply (@less_finite _ _ HF 0)|].
          intros v [a ->]. cbn. eauto. }
        intros ls [a ->]. pose proof (@fits_test a W c x HW Hc Hx) as HT. destruct (flt _ f1).
        + assert (fits cf W c x) as Hfc by now apply HT. destruct best as [o|].
          * destruct Hb as (o' & -> & B1 & B2 & B3).
            assert (fgt (fmul (mean (emb o')) (weight (emb o'))) (fmul (mean (emb c)) (weight (emb c))) = true <-> load c < load o') as Eg.
            { unfold load. cbn [emb mean weight]. rewrite !xmul_fin. apply (@fgt_val xr _ xlaws (XFin (fst o' * snd o')) (XFin (fst c * snd c)) (fst o' * snd o') (fst c * snd c)); reflexivity. }
            cbn [whenever]. destruct (fgt _ _).
            -- assert (load c < load o') as Hlt by now apply Eg. exists c. split; [reflexivity|]. split; [apply in_or_app; right; left; auto|]. split; [exact Hfc|].
               intros d Hd Hfd. apply in_app_or in Hd as [Hd|[<-|[]]]; [|lra]. specialize (B3 d Hd Hfd). lra.
            -- assert (~ load c < load o') as Hge by (intros Q; apply Eg in Q; discriminate). exists o'. split; [reflexivity|]. split; [apply in_or_app; auto|]. split; [exact B2|].
               intros d Hd Hfd. apply in_app_or in Hd as [Hd|[<-|[]]]; [auto|lra].
          * cbn [whenever]. exists c. split; [reflexivity|]. split; [apply in_or_app; right; left; auto|]. split; [exact Hfc|].
            intros d Hd Hfd. apply in_app_or in Hd as [Hd|[<-|[]]]; [|lra]. exfalso. exact (Hb d Hd Hfd).
        + assert (~ fits cf W c x) as Hfc by (intros Q; apply HT in Q; discriminate). cbn [whenever]. destruct best as [o|].
          * destruct Hb as (o' & -> & B1 & B2 & B3). exists o'. split; [reflexivity|]. split; [apply in_or_app; auto|]. split; [exact B2|].
            intros d Hd Hfd. apply in_app_or in Hd as [Hd|[<-|[]]]; [auto|contradiction].
          * intros d Hd. apply in_app_or in Hd as [Hd|[<-|[]]]; auto. }
    apply (H near [] None Hn). intros d [].
  Qed.

  Lemma tok_rep t cs : tok t cs -> rep t (map (fun c => (XFin (fst c), XFin (snd c))) cs).
  Proof.
    intros ([HA HS] & HF & HE). unfold rep. rewrite HE in *. split; [exact HA|]. split; [|split].
    - rewrite map_map. apply Permutation_refl.
    - rewrite HS, !map_length. reflexivity.
    - apply Forall_forall. intros p Hp. apply in_map_iff in Hp as (c & <- & _). reflexivity.
  Qed.

  Lemma closest_near t cs x : tok t cs -> cs <> [] -> exists near, closest_keys t (XFin x) = Ret (map emb near) /\ nearest cs x near.
  Proof.
    intros HT Hne. pose proof (tok_rep HT) as HR. set (l := map (fun c : R * R => (XFin (fst c), XFin (snd c))) cs) in HR.
    destruct (@closest_keys_ok xr xr_ops xlaws t l (XFin x) HR) as (path & m & E & Im & HI & Hm).
    { unfold l. destruct cs; [congruence|discriminate]. }
    { apply Forall_forall. intros p Hp. apply in_map_iff in Hp as (c & <- & _). exists (fst c). reflexivity. }
    { exists x. reflexivity. }
    assert (forall c, In c path -> exists r, In r cs /\ c = emb r) as HP.
    { intros c Hc. destruct (HI c Hc) as (p & Hp & <-). apply in_map_iff in Hp as (r & <- & Hr). exists r. auto. }
    assert (exists rp, path = map emb rp /\ incl rp cs) as (rp & -> & Hrp).
    { clear - HP. induction path as [|c path IH]; [exists []; split; [auto|intros ? []]|]. destruct (HP c) as (r & Hr & ->); [left; auto|].
      destruct IH as (rp & -> & Hi); [intros; apply HP; right; auto|]. exists (r :: rp). split; [reflexivity|]. intros y [<-|Hy]; auto. }
    destruct (HP m Im) as (mr & Hmr & ->).
    assert (forall c, flt (fabs (fsub (dist (XFin x) (emb c)) (dist (XFin x) (emb mr)))) (frat 1 1000) = true <->
      Rabs (Rabs (fst c - x) - Rabs (fst mr - x)) < / 1000) as HD.
    { intros c. match goal with |- flt ?a ?b = true <-> _ => assert (flt a b = true <-> xlt a b) as -> by (exact (@flt_iff xr _ xlaws a b)) end.
      rewrite xlt_iff. unfold dist. cbn. unfold Rminus, Rdiv. rewrite Rmult_1_l. reflexivity. }
    assert (forall d, In d cs -> Rabs (fst mr - x) <= Rabs (fst d - x)) as Hmin.
    { intros d Hd. specialize (Hm (XFin (fst d), XFin (snd d))). assert (In (XFin (fst d), XFin (snd d)) l) as Hdl by (apply in_map_iff; exists d; auto).
      specialize (Hm Hdl). unfold dist in Hm. apply (@fle_iff xr xr_ops xlaws) in Hm. cbn in Hm. apply xle_fin in Hm. exact Hm. }
    exists (filter (fun c => flt (fabs (fsub (dist (XFin x) (emb c)) (dist (XFin x) (emb mr)))) (frat 1 1000)) rp). split.
    - rewrite E. f_equal. clear. induction rp as [|c rp IH]; cbn [map filter]; [reflexivity|]. destruct (flt _ _); cbn [map]; now rewrite IH.
    - split; [intros c Hc; apply filter_In in Hc as [Hc _]; auto|]. split.
      + exists mr. split; [|exact Hmin]. apply filter_In. split.
        * apply in_map_iff in Im as (r0 & E0 & Hr0). apply emb_inj in E0. now subst.
        * apply HD. replace (Rabs (fst mr - x) - Rabs (fst mr - x)) with 0 by lra. rewrite Rabs_R0. lra.
      + intros c d Hc Hd. apply filter_In in Hc as [Hc Hf]. apply HD in Hf. apply Rabs_def2 in Hf as [Hf _]. specialize (Hmin d Hd). lra.
  Qed.

  Lemma insert_tok t cs x : tok t cs -> whenever (fun t' => exists cs', tok t' cs' /\ Permutation cs' (x :: cs)) (kt_insert t (XFin (fst x)) (XFin (snd x))).
  Proof.
    intros (HG & HF & HE). pose proof (@insert_good xr xr_ops xlaws t (XFin (fst x)) (XFin (snd x)) HG) as H1.
    assert (whenever (fun t' => finite_tree (kt_root t')) (kt_insert t (XFin (fst x)) (XFin (snd x)))) as H2.
    { unfold kt_insert. eapply whenever_bind; [apply (@insert_finite (kt_root t) (XFin (fst x)) (snd x) HF)|]. intros r Hr. exact Hr. }
    eapply whenever_mono; [exact (whenever_and _ _ _ H1 H2)|]. intros t' [[G P] Ft]. rewrite HE in P.
    change (Cen (XFin (fst x)) (XFin (snd x)) :: map emb cs) with (map emb (x :: cs)) in P. apply perm_emb in P as (cs' & E & P). exists cs'. split; [split; auto|exact P].
  Qed.

  Lemma place_tok t cs W x : tok t cs -> Forall pos cs -> pos x -> 0 <= W ->
    whenever (fun t' => exists cs', tok t' cs' /\ tplace cf cs W x cs') (tree_place cfg t (XFin W) (emb x)).
  Proof.
    intros HT Hp Hx HW. unfold tree_place. cbn [emb mean weight]. destruct cs as [|c0 cs0] eqn:Ecs.
    - assert (closest_keys t (XFin (fst x)) = Ret []) as ->.
      { destruct HT as (_ & _ & HE). unfold closest_keys, sorted_vec_key in *. destruct (kt_root t); [reflexivity|]. cbn in HE. apply app_eq_nil in HE as [_ ?]. discriminate. }
      cbn [bind]. eapply whenever_mono; [apply (@insert_tok t [] x HT)|]. intros t' (cs' & H1 & H2). exists cs'. split; [exact H1|].
      apply tplace_first; [reflexivity|]. symmetry in H2. now apply Permutation_length_1_inv in H2.
    - rewrite <- Ecs in *. assert (cs <> []) as Hne by congruence. clear c0 cs0 Ecs.
      destruct (@closest_near t cs (fst x) HT Hne) as (near & -> & HN). cbn [bind].
      assert (Forall pos near) as Hpn. { apply Forall_forall. intros c Hc. rewrite Forall_forall in Hp. apply Hp. now apply HN. }
      destruct HT as (HG & HF & HE). pose proof (@pick_chosen t W x near HW Hpn Hx HF) as HC. change (Cen (XFin (fst x)) (XFin (snd x))) with (emb x).
      assert (map emb near <> []) as Hnn. { destruct HN as (_ & (m & Hm & _) & _). destruct near; [destruct Hm|discriminate]. }
      destruct (map emb near) as [|e0 el] eqn:Em; [congruence|]. rewrite <- Em in *. clear e0 el Em Hnn.
      eapply whenever_bind; [exact HC|]. intros [e|] Ho; cbn [chosen] in Ho.
      + destruct Ho as (c & -> & Ic & Hfc & Hbest). assert (In c cs) as Icc by now apply HN. assert (pos c) as Hc by (rewrite Forall_forall in Hp; auto).
        eapply whenever_bind with (P := fun t' => exists rest, tok t' rest /\ Permutation cs (c :: rest)).
        * assert (In (emb c) (sorted_vec_key t)) as Hin by (rewrite HE; now apply in_map).
          destruct HG as [HA HS]. unfold kt_delete. cbn [emb mean].
          pose proof (@delete_finite (kt_root t) (XFin (fst c)) HF) as HD.
          destruct (@node_delete_cases xr xr_ops xlaws (kt_root t) (XFin (fst c)) HA) as [[-> _]|(r & E & [[H1 H2]|(a & d & b & H1 & H2 & H3)])]; [exact I| |].
          -- pose proof (H2 (emb c) Hin) as E0. cbn [emb mean] in E0. rewrite (@feq_refl xr xr_ops xlaws (XFin (fst c)) eq_refl) in E0. discriminate.
          -- rewrite E in *. cbn [whenever] in HD. cbn [bind]. destruct (kt_size t) as [|n] eqn:En; [exact I|]. cbn [whenever].
             assert (emb c = d) as Ed by (unfold sorted_vec_key in *; rewrite H1 in *; eapply (@asc_unique xr xr_ops xlaws); eauto). subst d.
             unfold sorted_vec_key in *. rewrite H1 in *. rewrite app_length in HS. cbn [length] in HS.
             assert (exists ra rb, a = map emb ra /\ b = map emb rb /\ cs = ra ++ c :: rb) as (ra & rb & -> & -> & ->).
             { clear - HE. symmetry in HE. apply map_eq_app in HE as (ra & rb0 & -> & E1 & E2). destruct rb0 as [|c' rb]; [discriminate|]. cbn [map] in E2.
               injection E2 as E2 E4 E3. exists ra, rb. split; [now symmetry|]. split; [now symmetry|]. f_equal. f_equal. destruct c, c'; cbn in *; congruence. }
             exists (ra ++ rb). split; [|symmetry; apply Permutation_middle]. split; [split|split].
             ++ unfold sorted_vec_key. cbn [kt_root]. rewrite H3. apply asc_mid in HA as (A1 & A2 & A3 & A4). apply asc_app. split; [auto|]. split; [auto|].
                intros u v Hu Hv. eapply klt_trans; [apply A3|apply A4]; auto.
             ++ unfold sorted_vec_key. cbn [kt_root kt_size]. rewrite H3, app_length. lia.
             ++ exact HD.
             ++ unfold sorted_vec_key. cbn [kt_root]. now rewrite H3, map_app.
        * intros t1 (rest & H1 & H2). cbn [emb mean weight]. rewrite !xmul_fin, !xadd_fin. unfold pos in *. rewrite xdiv_fin by lra.
          eapply whenever_mono; [apply (@insert_tok t1 rest (joined c x) H1)|]. intros t' (cs' & H3 & H4). exists cs'. split; [exact H3|].
          eapply tplace_join; eauto.
      + eapply whenever_mono; [apply (@insert_tok t cs x); split; auto|]. intros t' (cs' & H3 & H4). exists cs'. split; [exact H3|]. eapply tplace_new; eauto.
  Qed.

  Lemma tplace_pos l W x l' : tplace cf l W x l' -> Forall pos l -> pos x -> Forall pos l' /\ (length l' <= S (length l))%nat.
  Proof.
    intros [-> ->|near c rest HN Ic _ _ P1 P2|near _ _ P] Hl Hx.
    - split; [constructor; auto|cbn; lia].
    - rewrite P1 in Hl. pose proof (Forall_inv Hl). apply Forall_inv_tail in Hl. rewrite (Permutation_length P1), (Permutation_length P2). cbn [length]. split; [|lia].
      eapply Permutation_Forall; [symmetry; exact P2|]. constructor; auto using joined_pos.
    - rewrite (Permutation_length P). split; [|cbn; lia]. eapply Permutation_Forall; [symmetry; exact P|]. constructor; auto.
  Qed.

  Lemma steps_tplace g k xs : to_usize (fmul g (tc_cf cfg)) = Ret k -> Forall pos xs ->
    forall s t cs W n, tok t cs -> Forall pos cs -> 0 <= W -> (length cs + length xs <= k)%nat ->
    whenever (fun st => let '(s', t', _, _) := st in exists cs', sorted_vec_key t' = map emb cs' /\ tplace_all cf cs W xs cs')
      (foldM (tree_one cfg shuffle g) (s, t, XFin W, n) (map emb xs)).
  Proof.
    intros Hg Hxs. induction Hxs as [|x xs Hx Hxs IH]; intros s t cs W n HT Hp HW Hlen; cbn [map foldM].
    - exists cs. split; [apply HT|constructor].
    - cbn [length] in Hlen. eapply whenever_bind with (P := fun st => exists t' cs', st = (s, t', XFin (W + snd x), n) /\ tok t' cs' /\ tplace cf cs W x cs').
      + unfold tree_one. eapply whenever_bind; [apply (@place_tok t cs W x); auto|]. intros t' (cs' & H1 & H2). cbv zeta. rewrite Hg. cbn [bind].
        destruct (tplace_pos H2 Hp Hx) as [_ Hl']. destruct H1 as ([HA HS] & H1). pose proof HS as HS'. rewrite (proj2 H1), map_length in HS'.
        destruct (Nat.ltb_spec k (kt_size t')) as [L|L]; [exfalso; unfold rcen in *; lia|]. cbn [whenever emb weight]. rewrite xadd_fin. exists t', cs'. split; [reflexivity|]. split; [split; [split; auto|exact H1]|exact H2].
      + intros st (t' & cs' & -> & H1 & H2). destruct (tplace_pos H2 Hp Hx) as [Hp' Hl'].
        eapply whenever_mono; [apply (IH s t' cs' (W + snd x) n H1 Hp')|].
        * unfold pos in Hx. lra.
        * unfold rcen in *; lia.
        * intros [[[s' t2] tot] n2] (cs2 & E & HA). exists cs2. split; [exact E|]. econstructor; eauto.
  Qed.

  Theorem calls_tplace s l xs g k : t_centroids s = map emb l -> Forall pos l -> Forall pos xs -> to_usize (fmul g (tc_cf cfg)) = Ret k ->
    (length l + length xs <= k)%nat ->
    whenever (fun s' => exists l0 l', Permutation l0 l /\ t_centroids s' = map emb l' /\ tplace_all cf l0 (sumR (map snd l)) xs l')
      (add_cluster_tree cfg shuffle s (map emb xs) g).
  Proof.
    intros E Hl Hxs Hk' Hlen. unfold add_cluster_tree. destruct (limits_same s xs) as (s0 & -> & E0). cbn [bind]. rewrite E in E0.
    assert (total_weight s0 = XFin (sumR (map snd l))) as -> by (unfold total_weight; rewrite E0; exact (sum_weights_emb l)).
    assert (0 <= sumR (map snd l)) as HW.
    { clear - Hl. induction Hl as [|p l Hp Hl IH]; [cbn; lra|]. unfold pos in Hp. change (0 <= snd p + sumR (map snd l)). lra. }
    eapply whenever_bind with (P := fun t => exists l0, Permutation l0 l /\ tok t l0).
    - rewrite E0. assert (Permutation (shuffle 0%nat (map emb l)) (map emb l)) as HS by apply Hshuf. apply perm_emb in HS as (ls & -> & HS).
      assert (forall zs t cs, tok t cs -> whenever (fun t' => exists cs', tok t' cs' /\ Permutation cs' (cs ++ zs)) (foldM (fun t c => kt_insert t (mean c) (weight c)) t (map emb zs))) as HF.
      { induction zs as [|z zs IH]; intros t cs HT; cbn [map foldM]; [cbn; exists cs; rewrite app_nil_r; auto|].
        eapply whenever_bind; [apply (@insert_tok t cs z HT)|]. intros t1 (c1 & H1 & H2). eapply whenever_mono; [apply (IH t1 c1 H1)|].
        intros t2 (c2 & H3 & H4). exists c2. split; [exact H3|]. rewrite H4, H2. cbn [app]. apply Permutation_middle. }
      unfold kt_from. eapply whenever_mono; [apply (HF ls kt_new [])|].
      + split; [apply good_new|]. split; [exact I|reflexivity].
      + intros t' (cs' & H1 & H2). exists cs'. split; [|exact H1]. rewrite H2. exact HS.
    - intros t (l0 & HP & HT). assert (Forall pos l0) as Hl0 by (eapply Permutation_Forall; [symmetry; exact HP|exact Hl]).
      eapply whenever_bind; [apply (@steps_tplace g k xs Hk' Hxs s0 t l0 _ 1 HT Hl0 HW)|].
      + rewrite (Permutation_length HP). exact Hlen.
      + intros [[[s' t'] tot] n] (cs' & E1 & HA). cbn [whenever t_centroids]. exists l0, cs'. auto.
  Qed.
End Tree.
