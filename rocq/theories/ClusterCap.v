(** Where add_cluster (/repo/src/t_digest/t_digest.rs:368-436) puts a cluster, and how large it lets clusters grow; exact reals. *)
From Coq Require Import List Arith ZArith Lia Bool Permutation Sorted Reals Lra.
From Verif Require Import Base Floats XReal Digest TDigest ScaleFunctions Spec FloatFacts History TDigestProofs TDigestProofs2 TDigestExact TDigestHist TDigestTop TDigestCluster.
Set Implicit Arguments.
Local Open Scope R_scope.

(** ** Specification *)
(** the scale function of a configuration, with its compression factor *)
Definition scale_of (cfg : tcfg xr) (q n : R) : xr := tc_scale cfg (XFin q) (tc_cf cfg) (XFin n).
Definition joined (c x : R * R) : R * R := ((fst c * snd c + fst x * snd x) / (snd c + snd x), snd c + snd x).
(** weight of the clusters with a mean below [m] *)
Definition below (l : list (R * R)) (m : R) : R := sumR (map snd (filter (fun p => if Rlt_dec (fst p) m then true else false) l)).
(** less than one unit of scale from [left] on, for a total weight [t] *)
Definition short (cfg : tcfg xr) (left w t : R) : Prop :=
  xlt (fabs (fsub (scale_of cfg ((left + w) / t) t) (scale_of cfg (left / t) t))) (XFin 1).
(** the test add_cluster makes before it joins [x] to [c]: the cluster is still counted in the total weight [W], and on the left
    when the joint mean is above its own *)
Definition has_room (cfg : tcfg xr) (l : list (R * R)) (W : R) (c x : R * R) : Prop :=
  short cfg (below l (fst (joined c x))) (snd (joined c x)) (W + snd (joined c x)).
Definition load (c : R * R) : R := fst c * snd c.
(** [a] and [b] are the clusters up to and from [x] *)
Definition cut_at (l a b : list (R * R)) (x : R) : Prop := l = a ++ b /\ Forall (fun p => fst p <= x) a /\ Forall (fun p => x <= fst p) b.

(** one cluster [x] put into [l], giving [l']: only the two neighbours are considered; joined to one with room, the one of
    lesser load if both have; else inserted in order *)
Inductive place (cfg : tcfg xr) (l : list (R * R)) (W : R) (x : R * R) (l' : list (R * R)) : Prop :=
| place_left a c b : cut_at l (a ++ [c]) b (fst x) -> has_room cfg l W c x ->
    (forall d b', b = d :: b' -> has_room cfg l W d x -> load c <= load d) -> l' = a ++ joined c x :: b -> place cfg l W x l'
| place_right a c b : cut_at l a (c :: b) (fst x) -> has_room cfg l W c x ->
    (forall a' d, a = a' ++ [d] -> has_room cfg l W d x -> load c < load d) -> l' = a ++ joined c x :: b -> place cfg l W x l'
| place_new a b a2 b2 : cut_at l a b (fst x) -> (forall d b', b = d :: b' -> ~ has_room cfg l W d x) ->
    (forall a' d, a = a' ++ [d] -> ~ has_room cfg l W d x) -> cut_at l a2 b2 (fst x) -> l' = a2 ++ x :: b2 -> place cfg l W x l'.

(** the same with nothing said about which cluster is joined, or where the new one goes *)
Inductive put (cfg : tcfg xr) (l : list (R * R)) (W : R) (x : R * R) (l' : list (R * R)) : Prop :=
| put_joined a c b : l = a ++ c :: b -> has_room cfg l W c x -> l' = a ++ joined c x :: b -> put cfg l W x l'
| put_new a b : l = a ++ b -> l' = a ++ x :: b -> put cfg l W x l'.

(** the clusters [xs] one after the other; where the means are not strictly ascending nothing is said about the place *)
Inductive place_all (cfg : tcfg xr) : list (R * R) -> R -> list (R * R) -> list (R * R) -> Prop :=
| place_all_nil l W : place_all cfg l W [] l
| place_all_cons l W x xs l1 l' : put cfg l W x l1 -> (StronglySorted (fun a b => fst a < fst b) l -> place cfg l W x l1) ->
    place_all cfg l1 (W + snd x) xs l' -> place_all cfg l W (x :: xs) l'.

(* ------------------------------------------------------------------ *)
Section Exact.
  Variable cfg : tcfg xr.
  Hypothesis Hlib : lib_ok cfg.

  Let xlaws : FloatLaws xr := xr_laws (Z.le_refl 4096).
  #[local] Existing Instance xlaws.

  Lemma joined_ravg c x : joined c x = ravg [c; x].
  Proof. unfold joined, ravg, Sm, Wt. cbn. f_equal; [f_equal|]; lra. Qed.

  Lemma weight_left_emb l m : weight_left (map emb l) (XFin m) = XFin (below l m).
  Proof.
    unfold weight_left, below.
    assert (map (@weight xr) (filter (fun c => flt (mean c) (XFin m)) (map emb l)) =
            map (@weight xr) (map emb (filter (fun p : rcen => if Rlt_dec (fst p) m then true else false) l))) as ->.
    { f_equal. induction l as [|p l IH]; cbn [map filter]; [reflexivity|].
      assert (flt (mean (emb p)) (XFin m) = if Rlt_dec (fst p) m then true else false) as ->.
      { destruct (Rlt_dec (fst p) m) as [L|L].
        - apply (@flt_val xr _ xlaws (mean (emb p)) (XFin m) (fst p) m); auto.
        - destruct (flt _ _) eqn:E; auto. exfalso. apply L. now apply (@flt_val xr _ xlaws (mean (emb p)) (XFin m) (fst p) m) in E. }
      destruct (Rlt_dec (fst p) m); cbn [map]; now rewrite IH. }
    exact (sum_weights_emb (filter (fun p : rcen => if Rlt_dec (fst p) m then true else false) l)).
  Qed.

  Lemma below_nn l m : Forall pos l -> 0 <= below l m.
  Proof.
    intros H. unfold below. induction H as [|p l Hp H IH]; cbn [filter map sumR]; [cbn; lra|].
    unfold pos in Hp. destruct (Rlt_dec (fst p) m); cbn [map]; [|exact IH].
    change (0 <= snd p + sumR (map snd (filter (fun p0 : R * R => if Rlt_dec (fst p0) m then true else false) l))). lra.
  Qed.

  Lemma room_test l W c x : 0 <= W -> pos c -> pos x ->
    flt (fabs (k_size cfg (map emb l) (cen_add (emb x) (emb c)) (XFin W))) f1 = true <-> has_room cfg l W c x.
  Proof.
    intros HW Hc Hx. unfold k_size. rewrite cen_add_emb by auto.
    assert (ravg [x; c] = joined c x) as -> by (unfold joined, ravg, Sm, Wt; cbn; f_equal; [f_equal|]; lra).
    cbn [emb weight mean]. rewrite weight_left_emb. unfold k_size_from_weights. rewrite xadd_fin.
    assert (0 < W + snd (joined c x)) as HT by (unfold pos, joined in *; cbn [snd]; lra).
    rewrite !xdiv_fin by lra. rewrite xadd_fin. unfold has_room, short, scale_of.
    replace (below l (fst (joined c x)) / (W + snd (joined c x)) + snd (joined c x) / (W + snd (joined c x)))
      with ((below l (fst (joined c x)) + snd (joined c x)) / (W + snd (joined c x))) by (field; lra).
    match goal with |- flt ?a ?b = true <-> _ => exact (@flt_iff xr _ xlaws a b) end.
  Qed.

  (** *** the choice among the candidates *)
  Definition roomb (l : list rcen) (W : R) (x : rcen) (j : nat) : bool :=
    match nth_error l j with Some c => flt (fabs (k_size cfg (map emb l) (cen_add (emb x) (emb c)) (XFin W))) f1 | None => false end.
  Definition loadn (l : list rcen) (j : nat) : R := match nth_error l j with Some c => load c | None => 0 end.
  Lemma nth_lt (l : list rcen) j c : nth_error l j = Some c -> (j < length l)%nat.
  Proof. intros H. apply nth_error_Some. congruence. Qed.
  Lemma loadn_eq l j c : nth_error l j = Some c -> loadn l j = load c.
  Proof. intros H. unfold loadn. now rewrite H. Qed.
  Definition best_of (l : list rcen) (W : R) (x : rcen) (li ri : nat) (o : option nat) : Prop :=
    match o with
    | Some k => (li <= k < ri)%nat /\ roomb l W x k = true /\
        (forall j, (li <= j < k)%nat -> roomb l W x j = true -> loadn l k < loadn l j) /\
        (forall j, (k <= j < ri)%nat -> roomb l W x j = true -> loadn l k <= loadn l j)
    | None => forall j, (li <= j < ri)%nat -> roomb l W x j = false
    end.

  Lemma pick_index_exact l x W li ri : (li <= ri)%nat -> (ri <= length l)%nat ->
    exists o, pick_index cfg (map emb l) (emb x) (XFin W) li ri = Ret o /\ best_of l W x li ri o.
  Proof.
    intros H1 H2. unfold pick_index.
    assert (forall k m best, (li <= m)%nat -> (m + k = ri)%nat -> best_of l W x li m best ->
      exists o, foldM (fun best i =>
        do c <- nth_cen (map emb l) i;
        if flt (fabs (k_size cfg (map emb l) (cen_add (emb x) c) (XFin W))) f1 then
          match best with
          | None => Ret (Some i)
          | Some o => do co <- nth_cen (map emb l) o;
            Ret (if fgt (fmul (mean co) (weight co)) (fmul (mean c) (weight c)) then Some i else best)
          end
        else Ret best) best (seq m k) = Ret o /\ best_of l W x li ri o) as HK.
    { induction k as [|k IH]; intros m best Hm Hk Hb; cbn [seq foldM].
      { exists best. split; auto. replace ri with m by lia. exact Hb. }
      destruct (nth_some l (i := m)) as (c & Hc); [lia|]. rewrite (nth_emb _ _ Hc). cbn [bind].
      assert (flt (fabs (k_size cfg (map emb l) (cen_add (emb x) (emb c)) (XFin W))) f1 = roomb l W x m) as Er by (unfold roomb; now rewrite Hc).
      rewrite Er. assert (loadn l m = load c) as Elc by (unfold loadn; now rewrite Hc).
      destruct (roomb l W x m) eqn:Erm.
      - destruct best as [o|].
        + destruct Hb as (B1 & B2 & B3 & B4). destruct (nth_some l (i := o)) as (co & Hco); [lia|]. rewrite (nth_emb _ _ Hco). cbn [bind].
          assert (loadn l o = load co) as Elo by (unfold loadn; now rewrite Hco).
          assert (fgt (fmul (mean (emb co)) (weight (emb co))) (fmul (mean (emb c)) (weight (emb c))) = true <-> load c < load co) as Eg.
          { unfold load. cbn [emb mean weight]. rewrite !xmul_fin. apply (@fgt_val xr _ xlaws (XFin (fst co * snd co)) (XFin (fst c * snd c)) (fst co * snd co) (fst c * snd c)); reflexivity. }
          destruct (fgt _ _).
          * assert (load c < load co) as Hlt by now apply Eg. apply IH; [lia|lia|]. split; [lia|]. split; [auto|]. split.
            -- intros j Hj Hr. rewrite Elc. destruct (Nat.lt_ge_cases j o) as [L|L].
               ++ pose proof (B3 j ltac:(lia) Hr). lra.
               ++ pose proof (B4 j ltac:(lia) Hr). lra.
            -- intros j Hj Hr. replace j with m by lia. lra.
          * assert (~ load c < load co) as Hge by (intros Q; apply Eg in Q; discriminate). apply IH; [lia|lia|]. split; [lia|]. split; [auto|]. split; [auto|].
            intros j Hj Hr. destruct (Nat.eq_dec j m) as [->|]; [lra|]. apply B4; auto. lia.
        + apply IH; [lia|lia|]. split; [lia|]. split; [auto|]. split.
          * intros j Hj Hr. rewrite (Hb j) in Hr by lia. discriminate.
          * intros j Hj Hr. replace j with m by lia. lra.
      - cbn [bind]. apply IH; [lia|lia|]. destruct best as [o|].
        + destruct Hb as (B1 & B2 & B3 & B4). split; [lia|]. split; [auto|]. split; [auto|].
          intros j Hj Hr. destruct (Nat.eq_dec j m) as [->|]; [congruence|]. apply B4; auto. lia.
        + intros j Hj. destruct (Nat.eq_dec j m) as [->|]; [auto|]. apply Hb. lia. }
    apply HK; [lia|lia|]. intros j Hj. lia.
  Qed.

  Lemma cut_split l x i : cut l x i -> cut_at l (firstn i l) (skipn i l) x.
  Proof.
    intros (H1 & H2 & H3). split; [symmetry; apply firstn_skipn|]. split.
    - apply Forall_forall. intros c Hc. apply firstn_nth in Hc as (q & Hq & Hc). now apply (H2 q).
    - apply Forall_forall. intros c Hc. apply skipn_nth in Hc as (q & Hq & Hc). now apply (H3 q).
  Qed.

  Lemma firstn_last {A} (l : list A) i a d : (i <= length l)%nat -> firstn i l = a ++ [d] -> (1 <= i)%nat /\ nth_error l (i - 1) = Some d /\ a = firstn (i - 1) l.
  Proof.
    intros Hi E. assert (i = S (length a)) as ->.
    { apply (f_equal (@length A)) in E. rewrite firstn_length, app_length in E. cbn in E. lia. }
    split; [lia|]. replace (S (length a) - 1)%nat with (length a) by lia.
    assert (l = a ++ d :: skipn (S (length a)) l) as El.
    { rewrite <- (firstn_skipn (S (length a)) l) at 1. rewrite E, <- app_assoc. reflexivity. }
    split.
    - rewrite El. rewrite nth_error_app2 by lia. now rewrite Nat.sub_diag.
    - rewrite El. now rewrite firstn_app, Nat.sub_diag, firstn_all, app_nil_r.
  Qed.

  Lemma skipn_head {A} (l : list A) i d b : skipn i l = d :: b -> nth_error l i = Some d /\ b = skipn (S i) l.
  Proof. revert l. induction i as [|i IH]; intros [|y l] E; try discriminate; cbn in *; [now injection E as -> ->|]. now apply IH. Qed.
  Lemma firstn_snoc {A} (l : list A) i c : nth_error l i = Some c -> firstn (S i) l = firstn i l ++ [c].
  Proof. revert l. induction i as [|i IH]; intros [|y l] E; try discriminate; cbn in *; [now injection E as ->|]. now rewrite <- IH. Qed.
  Lemma skipn_cons {A} (l : list A) i c : nth_error l i = Some c -> skipn i l = c :: skipn (S i) l.
  Proof. revert l. induction i as [|i IH]; intros [|y l] E; try discriminate; cbn in *; [now injection E as ->|]. now apply IH. Qed.

  Lemma room_iff l W x j c : 0 <= W -> Forall pos l -> pos x -> nth_error l j = Some c -> roomb l W x j = true <-> has_room cfg l W c x.
  Proof.
    intros HW Hl Hx Hc. unfold roomb. rewrite Hc. apply room_test; auto. rewrite Forall_forall in Hl. apply Hl. eapply nth_error_In, Hc.
  Qed.

  Lemma joined_pos c x : pos c -> pos x -> pos (joined c x).
  Proof. unfold pos, joined. cbn [snd]. lra. Qed.

  Lemma put_pos l W x l' : put cfg l W x l' -> Forall pos l -> pos x -> Forall pos l' /\ (length l' <= S (length l))%nat.
  Proof.
    intros [a c b E _ ->|a b E ->] Hl Hx; rewrite E in *; apply Forall_app in Hl as [H1 H2]; rewrite !app_length; cbn [length].
    - inversion H2; subst. split; [|lia]. apply Forall_app. split; auto. constructor; auto using joined_pos.
    - split; [|lia]. apply Forall_app. split; auto.
  Qed.
  Lemma place_put l W x l' : place cfg l W x l' -> put cfg l W x l'.
  Proof.
    intros [a c b (E & _) H1 _ ->|a c b (E & _) H1 _ ->|a b a2 b2 _ _ _ (E & _) ->].
    - rewrite <- app_assoc in E. eapply put_joined; eauto.
    - eapply put_joined; eauto.
    - eapply put_new; eauto.
  Qed.

  (** the step without any order among the means *)
  Lemma step_put s l W x g : t_centroids s = map emb l -> Forall pos l -> pos x -> 0 <= W ->
    exists l' k, cluster_one cfg g (s, XFin W) (emb x) = after_place cfg g s (XFin (W + snd x)) (map emb l') k /\ put cfg l W x l'.
  Proof.
    intros E Hl Hx HW. destruct l as [|p0 l0] eqn:El.
    - exists [x]. eexists. split; [|apply put_new with (a := []) (b := []); reflexivity]. unfold cluster_one. rewrite E.
      cbn [map find_closest bind binary_search vec_insert length Nat.leb firstn skipn app emb weight]. rewrite xadd_fin. reflexivity.
    - assert (map emb l <> []) as Hne by (rewrite El; discriminate). rewrite <- El in *. clear El p0 l0. unfold cluster_one. rewrite E. cbn [emb mean weight]. rewrite xadd_fin.
      destruct (@find_closest_total xr xr_ops cfg Hlib (t_tick s) (map emb l) (XFin (fst x)) Hne (clean_emb l) eq_refl) as (li & ri & -> & Hr). cbn [bind].
      rewrite map_length in Hr. change (Cen (XFin (fst x)) (XFin (snd x))) with (emb x).
      destruct (@pick_index_exact l x W li ri) as (o & -> & Hb); [lia|lia|]. cbn [bind]. destruct o as [j|].
      + destruct Hb as (B1 & B2 & _). destruct (nth_some l (i := j)) as (c & Hc); [lia|]. rewrite (nth_emb _ _ Hc). cbn [bind].
        assert (pos c) as Hpc by (rewrite Forall_forall in Hl; apply Hl; eapply nth_error_In, Hc).
        destruct (@split_at rcen l j) as (m' & A & B); [lia|]. assert (m' = c) as -> by congruence.
        exists (firstn j l ++ joined c x :: skipn (S j) l). eexists. split.
        * rewrite (@set_nth_split _ (map emb l) j) by (rewrite map_length; lia). unfold after_place.
          rewrite map_app. cbn [map]. rewrite joined_ravg, <- cen_add_emb by auto. rewrite <- firstn_map, <- skipn_map. reflexivity.
        * eapply put_joined; [exact B| |reflexivity]. now apply (room_iff _ HW Hl Hx Hc).
      + destruct (@binary_search_ok xr xr_ops cfg Hlib (S (t_tick s)) (map emb l) (XFin (fst x)) (clean_emb l) eq_refl) as (i & -> & Hi & _). cbn [bind]. unfold vec_insert.
        destruct (Nat.leb_spec i (length (map emb l))); [|lia]. cbn [bind]. exists (firstn i l ++ x :: skipn i l). eexists. split.
        * unfold after_place. rewrite map_app. cbn [map]. rewrite <- firstn_map, <- skipn_map. reflexivity.
        * eapply put_new; [symmetry; apply firstn_skipn|reflexivity].
  Qed.

  Lemma ascending_dec l : {ascending l} + {~ ascending l}.
  Proof.
    induction l as [|p l [H|H]]; [left; constructor| |right; intros Q; apply H; now inversion Q].
    destruct (Forall_dec (fun q : rcen => fst p < fst q) (fun q => Rlt_dec (fst p) (fst q)) l) as [HF|HF].
    - left. constructor; auto.
    - right. intros Q. apply HF. now inversion Q.
  Qed.

  (** the clusters after the step, before the growth limit is looked at *)
  Theorem step_place s l W x g : t_centroids s = map emb l -> Forall pos l -> pos x -> 0 <= W ->
    exists l' k, cluster_one cfg g (s, XFin W) (emb x) = after_place cfg g s (XFin (W + snd x)) (map emb l') k /\ Forall pos l' /\
      (length l' <= S (length l))%nat /\ put cfg l W x l' /\ (ascending l -> place cfg l W x l').
  Proof.
    intros E Hl Hx HW.
    assert (exists l' k, cluster_one cfg g (s, XFin W) (emb x) = after_place cfg g s (XFin (W + snd x)) (map emb l') k /\
      (put cfg l W x l' \/ place cfg l W x l') /\ (ascending l -> place cfg l W x l')) as (l' & k & E1 & E2 & E3).
    { destruct (ascending_dec l) as [HA|HA].
      2:{ destruct (@step_put s l W x g E Hl Hx HW) as (l' & k & E1 & E2). exists l', k. split; [exact E1|]. split; [auto|contradiction]. }
      pose proof (ascending_rsorted HA) as HS. unfold cluster_one. rewrite E. cbn [emb mean weight]. rewrite xadd_fin.
      assert (forall tick, exists i, binary_search cfg tick (map emb l) (XFin (fst x)) = Ret i /\ cut l (fst x) i) as Hbs by (intros; now apply search_exact).
      assert (exists o, (do close <- find_closest cfg (t_tick s) (map emb l) (XFin (fst x));
                match close with Some (li, r) => pick_index cfg (map emb l) (emb x) (XFin W) li r | None => Ret None end) = Ret o /\
              exists i, cut l (fst x) i /\ best_of l W x (i - 1) (Nat.min (S i) (length l)) o) as (o & Eo & i & HC & HB).
      { destruct l as [|p0 l0] eqn:El.
        - exists None. split; [reflexivity|]. exists 0%nat. split; [split; [cbn; lia|split; intros [|j] c; discriminate + (cbn; lia)]|].
          intros j Hj. cbn in Hj. lia.
        - assert (l <> []) as Hne by congruence. rewrite <- El in *. clear El p0 l0.
          destruct (@find_closest_exact cfg Hlib (t_tick s) l (fst x) Hne HS) as (i & li & ri & HC & Ef & F1 & F2 & F3 & F4). rewrite Ef. cbn [bind].
          destruct (@pick_index_exact l x W li ri) as (o & Ep & Hb); [lia|lia|]. exists o. split; [exact Ep|]. exists i. split; [exact HC|].
          assert (forall j, (li <= j < ri)%nat -> (i - 1 <= j < Nat.min (S i) (length l))%nat) as Hr.
          { intros j Hj. destruct (nth_some l (i := j)) as (c & Hc); [lia|]. destruct (F4 j c Hj Hc) as [->|(d & Hd & Ed)]; [lia|].
            destruct (Nat.lt_trichotomy j (i - 1)) as [L|[->|L]]; [|lia|].
            - assert (fst c < fst d) by (apply (ascending_nth HA (i := j) (j := (i - 1)%nat)); auto). lra.
            - assert (fst d < fst c) by (apply (ascending_nth HA (i := (i - 1)%nat) (j := j)); auto). lra. }
          destruct HC as (HC1 & _ & _). destruct o as [j|]; cbn [best_of] in *.
          + destruct Hb as (B1 & B2 & B3 & B4). split; [now apply Hr|]. split; [auto|]. split.
            * intros j' Hj'. apply B3. lia.
            * intros j' Hj'. apply B4. lia.
          + intros j Hj. apply Hb. lia. }
      unfold bind at 1. rewrite <- bind_assoc. change (Cen (XFin (fst x)) (XFin (snd x))) with (emb x).
      rewrite Eo. cbn [bind]. clear Eo. pose proof (cut_split HC) as HCS.
      destruct o as [j|].
      - destruct HB as (B1 & B2 & B3 & B4). destruct (nth_some l (i := j)) as (c & Hc); [lia|]. rewrite (nth_emb _ _ Hc). cbn [bind].
        assert (pos c) as Hpc by (rewrite Forall_forall in Hl; apply Hl; eapply nth_error_In, Hc).
        assert (l = firstn j l ++ c :: skipn (S j) l) as Esp.
        { destruct (@split_at rcen l j) as (m' & A & B); [lia|]. congruence. }
        exists (firstn j l ++ joined c x :: skipn (S j) l). eexists. split.
        + rewrite (@set_nth_split _ (map emb l) j) by (rewrite map_length; lia). unfold after_place.
          rewrite map_app. cbn [map]. rewrite joined_ravg, <- cen_add_emb by auto. rewrite <- firstn_map, <- skipn_map. reflexivity.
        + cut (place cfg l W x (firstn j l ++ joined c x :: skipn (S j) l)); [auto|]. pose proof B2 as B2'. apply (room_iff _ HW Hl Hx Hc) in B2'.
          assert (loadn l j = load c) as Elj by (unfold loadn; now rewrite Hc).
          destruct HC as (HC1 & HC2 & HC3).
          assert (j = i \/ (S j = i)) as [->|Hji] by lia.
          * apply place_right with (a := firstn i l) (c := c) (b := skipn (S i) l); auto.
            -- exact (eq_ind (skipn i l) (fun b => cut_at l (firstn i l) b (fst x)) HCS _ (skipn_cons l i Hc)).
            -- intros a' d Ea Hd. apply firstn_last in Ea as (L1 & L2 & L3); [|exact HC1]. rewrite <- Elj.
               rewrite <- (loadn_eq _ _ L2). apply B3; [lia|]. now apply (room_iff _ HW Hl Hx L2).
          * subst i. apply place_left with (a := firstn j l) (c := c) (b := skipn (S j) l); auto.
            -- exact (eq_ind (firstn (S j) l) (fun a => cut_at l a (skipn (S j) l) (fst x)) HCS _ (firstn_snoc l j Hc)).
            -- intros d b' Eb Hd. apply skipn_head in Eb as (L1 & L2). rewrite <- Elj.
               pose proof (nth_lt _ _ L1).
               rewrite <- (loadn_eq _ _ L1). apply B4; [lia|]. now apply (room_iff _ HW Hl Hx L1).
      - destruct (Hbs (S (t_tick s))) as (i2 & E2 & HC2). rewrite E2. cbn [bind]. unfold vec_insert. destruct HC2 as (I2 & HC2). rewrite map_length.
        destruct (Nat.leb_spec i2 (length l)); [|lia]. cbn [bind]. exists (firstn i2 l ++ x :: skipn i2 l). eexists. split.
        + unfold after_place. rewrite map_app. cbn [map]. rewrite <- firstn_map, <- skipn_map. reflexivity.
        + cut (place cfg l W x (firstn i2 l ++ x :: skipn i2 l)); [auto|]. apply place_new with (a := firstn i l) (b := skipn i l) (a2 := firstn i2 l) (b2 := skipn i2 l); auto.
          * intros d b' Eb Hd. apply skipn_head in Eb as (L1 & L2). pose proof (nth_lt _ _ L1).
            apply (room_iff _ HW Hl Hx L1) in Hd. rewrite HB in Hd by lia. discriminate.
          * intros a' d Ea Hd. destruct HC as (HC1 & _). apply firstn_last in Ea as (L1 & L2 & L3); [|exact HC1].
            apply (room_iff _ HW Hl Hx L2) in Hd. rewrite HB in Hd by lia. discriminate.
          * apply cut_split. split; auto. }
    exists l', k. split; [exact E1|]. assert (put cfg l W x l') as HP by (destruct E2; auto using place_put). destruct (put_pos HP Hl Hx) as [P1 P2]. auto.
  Qed.

  (** *** whole calls *)
  Lemma limits_same s xs : exists s', update_limits s (map emb xs) = Ret s' /\ t_centroids s' = t_centroids s.
  Proof.
    unfold update_limits. rewrite map_map. cbn [emb mean].
    replace (map (fun x : rcen => XFin (fst x)) xs) with (map XFin (map fst xs)) by (now rewrite map_map).
    destruct xs as [|x xs]; [cbn; eauto|]. cbn [map min_by_key max_by_key]. unfold liftM.
    destruct (min_fold (map fst xs) (fst x)) as (mn & -> & Hmn). destruct (max_fold (map fst xs) (fst x)) as (mx & -> & Hmx). cbn [bind]. eauto.
  Qed.

  Lemma steps_place g k xs : to_usize (fmul g (tc_cf cfg)) = Ret k -> Forall pos xs ->
    forall s l W, t_centroids s = map emb l -> Forall pos l -> 0 <= W -> (length l + length xs <= k)%nat ->
    exists s' l', foldM (cluster_one cfg g) (s, XFin W) (map emb xs) = Ret (s', XFin (W + Wt xs)) /\ t_centroids s' = map emb l' /\ place_all cfg l W xs l'.
  Proof.
    intros Hk Hxs. induction Hxs as [|x xs Hx Hxs IH]; intros s l W E Hl HW Hlen; cbn [map foldM].
    - exists s, l. split; [|split; [exact E|constructor]]. unfold Wt. cbn. now rewrite Rplus_0_r.
    - cbn [length] in Hlen. destruct (@step_place s l W x g E Hl Hx HW) as (l1 & t & -> & P1 & P2 & P0 & P3). unfold after_place. rewrite Hk. cbn [bind].
      rewrite map_length. destruct (Nat.ltb_spec k (length l1)) as [L|L]; [exfalso; lia|]. cbn [bind].
      set (s1 := {| t_centroids := map emb l1; t_min := t_min s; t_max := t_max s; t_tick := t |}).
      destruct (IH s1 l1 (W + snd x)) as (s' & l' & E1 & E2 & E3); [reflexivity|exact P1|unfold pos in Hx; lra|lia|].
      exists s', l'. rewrite E1. split; [|split; [exact E2|econstructor; [exact P0|exact P3|exact E3]]].
      unfold Wt. cbn [map sumR fold_right]. do 3 f_equal. change (W + snd x + sumR (map snd xs) = W + (snd x + sumR (map snd xs))). lra.
  Qed.

  Theorem calls_place s l xs g k : t_centroids s = map emb l -> Forall pos l -> Forall pos xs -> to_usize (fmul g (tc_cf cfg)) = Ret k ->
    (length l + length xs <= k)%nat ->
    exists s' l', add_cluster cfg s (map emb xs) g = Ret s' /\ t_centroids s' = map emb l' /\ place_all cfg l (sumR (map snd l)) xs l'.
  Proof.
    intros E Hl Hxs Hk Hlen. unfold add_cluster. destruct (limits_same s xs) as (s0 & -> & E0). cbn [bind]. rewrite E in E0.
    assert (total_weight s0 = XFin (sumR (map snd l))) as -> by (unfold total_weight; rewrite E0; exact (sum_weights_emb l)).
    assert (0 <= sumR (map snd l)) as HW.
    { clear - Hl. induction Hl as [|p l Hp Hl IH]; [cbn; lra|]. unfold pos in Hp. change (0 <= snd p + sumR (map snd l)). lra. }
    destruct (steps_place g Hk Hxs s0 E0 Hl HW Hlen) as (s' & l' & -> & E2 & E3). cbn [bind]. eauto.
  Qed.

  (** *** the linear scale function k0: how heavy a joined cluster can be *)
  Section Linear.
    Variable cf : R.
    Hypothesis Hk : tc_scale cfg = k0.
    Hypothesis Hcf : tc_cf cfg = XFin cf.
    Hypothesis H2 : 2 < cf.

    Lemma room_k0 l W c x : 0 <= W -> pos c -> pos x -> has_room cfg l W c x <-> snd (joined c x) * (cf - 2) < 2 * W.
    Proof.
      intros HW Hc Hx. unfold has_room, short, scale_of. rewrite Hk, Hcf. unfold k0. set (w := snd (joined c x)).
      assert (0 < w) as Hw by (unfold w, joined, pos in *; cbn [snd]; lra). set (b := below l (fst (joined c x))).
      change (fk 2) with (XFin 2). rewrite !xmul_fin, !xdiv_fin by lra. rewrite xsub_fin. cbn [fabs xr_ops xabs].
      replace ((b + w) / (W + w) * cf / 2 - b / (W + w) * cf / 2) with (w * cf / (2 * (W + w))) by (field; lra).
      assert (0 < w * cf) as Hp by (apply Rmult_lt_0_compat; lra).
      assert (0 <= w * cf / (2 * (W + w))) as Hq by (apply Rmult_le_pos; [lra|apply Rlt_le, Rinv_0_lt_compat; lra]).
      rewrite Rabs_pos_eq by exact Hq. rewrite xlt_iff. cbn [xlt_d]. split; intros H.
      - apply Rmult_lt_compat_r with (r := 2 * (W + w)) in H; [|lra]. unfold Rdiv in H. rewrite Rmult_assoc, Rinv_l in H by lra. lra.
      - apply Rmult_lt_reg_r with (r := 2 * (W + w)); [lra|]. unfold Rdiv. rewrite Rmult_assoc, Rinv_l by lra. lra.
    Qed.

    Lemma all_cap l W xs l' : place_all cfg l W xs l' -> 0 <= W -> Forall pos l -> Forall pos xs ->
      Forall (fun p => In p l \/ In p xs \/ snd p * (cf - 2) < 2 * (W + sumR (map snd xs))) l'.
    Proof.
      induction 1 as [l W|l W x xs l1 l' HP _ _ IH]; intros HW Hl Hxs; [apply Forall_forall; auto|].
      pose proof (Forall_inv Hxs) as Hx. apply Forall_inv_tail in Hxs. destruct (put_pos HP Hl Hx) as [Hl1 _]. unfold pos in Hx.
      assert (0 <= sumR (map snd xs)) as Hs.
      { clear - Hxs. induction Hxs as [|p l Hp Hl IH]; [cbn; lra|]. unfold pos in Hp. change (0 <= snd p + sumR (map snd l)). lra. }
      change (sumR (map snd (x :: xs))) with (snd x + sumR (map snd xs)).
      eapply Forall_impl; [|apply IH; [lra|auto|auto]]. intros p [Hi|[Hi|Hi]].
      - destruct HP as [a c b E HR E1|a b E E1]; rewrite E1 in Hi.
        + apply in_app_or in Hi as [Hi|[<-|Hi]].
          * left. rewrite E. apply in_or_app. auto.
          * right. right. apply room_k0 in HR; [lra|auto| |exact Hx]. rewrite Forall_forall in Hl. apply Hl. rewrite E. apply in_or_app. right. left. auto.
          * left. rewrite E. apply in_or_app. right. right. auto.
        + apply in_app_or in Hi as [Hi|[<-|Hi]]; [left|right; left; left; auto|left]; rewrite E; apply in_or_app; auto.
      - right. left. right. exact Hi.
      - right. right. lra.
    Qed.

    Lemma all_weight l W xs l' : place_all cfg l W xs l' -> sumR (map snd l') = sumR (map snd l) + sumR (map snd xs).
    Proof.
      intros E3. induction E3 as [l W|l W x xs l1 l' HP _ _ IH]; [change (sumR (map snd (@nil (R * R)))) with 0; lra|].
      rewrite IH. change (sumR (map snd (x :: xs))) with (snd x + sumR (map snd xs)).
      enough (sumR (map snd l1) = sumR (map snd l) + snd x) by lra.
      assert (forall a b : list (R * R), sumR (map snd (a ++ b)) = sumR (map snd a) + sumR (map snd b)) as Ha by (intros; exact (Wt_app a b)).
      destruct HP as [a c b -> _ ->| a b -> ->]; rewrite !Ha; cbn [map].
      - change (sumR (map snd a) + (snd c + snd x + sumR (map snd b)) = sumR (map snd a) + (snd c + sumR (map snd b)) + snd x). lra.
      - change (sumR (map snd a) + (snd x + sumR (map snd b)) = sumR (map snd a) + sumR (map snd b) + snd x). lra.
    Qed.

    Theorem calls_cap s l xs g k : t_centroids s = map emb l -> Forall pos l -> Forall pos xs -> to_usize (fmul g (tc_cf cfg)) = Ret k ->
      (length l + length xs <= k)%nat ->
      exists s' l', add_cluster cfg s (map emb xs) g = Ret s' /\ t_centroids s' = map emb l' /\
        Forall (fun p => In p l \/ In p xs \/ snd p * (cf - 2) < 2 * sumR (map snd l')) l'.
    Proof.
      intros E Hl Hxs Hg Hlen. destruct (@calls_place s l xs g k E Hl Hxs Hg Hlen) as (s' & l' & E1 & E2 & E3). exists s', l'. split; [exact E1|]. split; [exact E2|].
      assert (0 <= sumR (map snd l)) as HW.
      { clear - Hl. induction Hl as [|p l Hp Hl IH]; [cbn; lra|]. unfold pos in Hp. change (0 <= snd p + sumR (map snd l)). lra. }
      replace (sumR (map snd l')) with (sumR (map snd l) + sumR (map snd xs)); [exact (all_cap E3 HW Hl Hxs)|].
      symmetry. exact (all_weight E3).
    Qed.
  End Linear.
End Exact.
