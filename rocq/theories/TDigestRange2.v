(** The quantile answers in rounded arithmetic, for all histories of TDigest and ParTDigest; the IEEE formats. *)
From Coq Require Import List Arith ZArith Lia Bool Permutation Sorted Reals Lra.
From Flocq Require Import Core Relative BinarySingleNaN.
From Verif Require Import Base Floats XReal IEEE Digest TDigest Spec FloatFacts History MultiSymProofs TDigestProofs TDigestProofs2 TDigestTop TDigestCluster ParTDProofs TDigestRange.
Set Implicit Arguments.

Local Open Scope R_scope.

Section Hist.
  Context {F : Type} {FO : FloatOps F} {FL : FloatLaws F}.
  Variables (B : R) (N : Z).
  Hypothesis HB : forall k, (Z.abs k <= N)%Z -> fexact (IZR k * B).
  Hypothesis HB0 : 0 <= B.
  Hypothesis HN : (2 <= N)%Z /\ (2 * N <= fint)%Z /\ (N <= 2 ^ 53)%Z.
  Variable cfg : tcfg F.
  Hypothesis Hlib : lib_ok cfg.

  Lemma bnd_val (x y : F) : fval x = fval y -> bnd B x -> bnd B y.
  Proof. intros E (r & H & H'). exists r. now rewrite <- E. Qed.

  Lemma fmin_bnd (x y : F) : bnd B x \/ x = fmaxval -> bnd B y -> bnd B (fmin x y).
  Proof.
    intros [Hx| ->] Hy; [destruct (fmin_cases x y) as [->| ->]; auto|].
    destruct (fmin_cases fmaxval y) as [E|E]; [|now rewrite E]. destruct Hy as (r & Hr & Hr1).
    apply bnd_val with y; [|exists r; auto].
    pose proof (fmaxval_ge Hr) as H1. pose proof (@fmin_le_r F FO FL fmaxval y) as H2. rewrite E in *. rewrite <- Hr in H1.
    apply xle_antisym; auto. apply fle_iff, H2. apply fisnan_false. rewrite Hr. discriminate.
  Qed.

  Lemma fmax_bnd (x y : F) : bnd B x \/ x = fminval -> bnd B y -> bnd B (fmax x y).
  Proof.
    intros [Hx| ->] Hy; [destruct (fmax_cases x y) as [->| ->]; auto|].
    destruct (fmax_cases fminval y) as [E|E]; [|now rewrite E]. destruct Hy as (r & Hr & Hr1).
    apply bnd_val with y; [|exists r; auto].
    pose proof (fminval_le Hr) as H1. pose proof (@fmax_ge_r F FO FL fminval y) as H2. rewrite E in *. rewrite <- Hr in H1.
    apply xle_antisym; auto. apply fle_iff, H2. apply fisnan_false. rewrite Hr. discriminate.
  Qed.

  (** extremes bounded, or those of a new digest *)
  Definition limits_ok (s : tdigest F) : Prop := (bnd B (t_min s) \/ t_min s = fmaxval) /\ (bnd B (t_max s) \/ t_max s = fminval).

  Lemma sound_limits s n : sound B s n -> (n = 0%Z -> limits_ok s) -> limits_ok s.
  Proof.
    intros [[(zs & Hz & Hn) Hb] HL] H0. destruct (Z_le_gt_dec 1 n) as [L|L].
    - destruct (HL L). split; auto.
    - apply H0. pose proof (sumZ_pos (wts_pos Hz)). lia.
  Qed.

  Lemma add_sound s n buf zb : good B s n -> limits_ok s -> wts buf zb -> Forall (fun c => bnd B (mean c)) buf -> (n + sumZ zb <= N)%Z ->
    always (fun s' => sound B s' (n + sumZ zb) /\ limits_ok s') (add_centroid_buffer cfg s buf).
  Proof.
    intros HG HL Hw Hb Hs.
    assert (always (fun s' => good B s' (n + sumZ zb)) (add_centroid_buffer cfg s buf)) as H1.
    { destruct HN as (N1 & N2 & N3). apply (@add_centroid_buffer_good F FO FL cfg Hlib B N) with (zb := zb); auto; lia. }
    assert (buf ++ t_centroids s = [] \/ buf ++ t_centroids s <> []) as [E|Hne] by (destruct (buf ++ t_centroids s); [left|right]; congruence).
    - rewrite add_centroid_buffer_nil in H1 |- * by auto. cbn [always] in *. split; auto. split; auto. intros L. exfalso.
      destruct H1 as [(zs & A & A') _]. apply app_eq_nil in E as [_ E]. rewrite E in A. inversion A; subst. cbn in A'. lia.
    - assert (Forall (fun c => bnd B (mean c)) (buf ++ t_centroids s)) as Hall by (apply Forall_app; split; [auto|apply HG]).
      destruct (@add_centroid_buffer_spec F FO cfg Hlib s buf Hne) as (sorted & gs & first & lst & A1 & A2 & A3 & A4 & A5 & A6 & E).
      { right. eapply Forall_impl; [|exact Hall]. intros c Hc. now apply bnd_nn with B. }
      rewrite E in *. cbn [always] in *.
      assert (Forall (fun c => bnd B (mean c)) sorted) as Hall' by (eapply Permutation_Forall; [symmetry; exact A1|exact Hall]).
      rewrite Forall_forall in Hall'. pose proof (Hall' _ (head_In _ A3)) as Bf. pose proof (Hall' _ (last_error_In _ A4)) as Bl.
      assert (bnd B (fmin (t_min s) (mean first))) as M1 by (apply fmin_bnd; auto; apply HL).
      assert (bnd B (fmax (t_max s) (mean lst))) as M2 by (apply fmax_bnd; auto; apply HL).
      split; [split; auto|]. split; auto.
  Qed.

  Lemma new_good : good (F := F) B td_new 0.
  Proof. split; [|constructor]. exists []. split; [constructor|reflexivity]. Qed.
  Lemma new_limits : limits_ok td_new.
  Proof. split; right; reflexivity. Qed.

  Lemma add_buffer_sound s n l : good B s n -> limits_ok s -> Forall (bnd B) l -> (n + Z.of_nat (length l) <= N)%Z ->
    always (fun s' => sound B s' (n + Z.of_nat (length l)) /\ limits_ok s') (td_add_buffer cfg s l).
  Proof.
    intros HG HL Hl Hn. unfold td_add_buffer. destruct (@unit_wts F FO FL l) as [U1 U2]. rewrite <- U2 in *.
    apply add_sound; auto. apply Forall_map. exact Hl.
  Qed.

  Lemma add_one_sound s n x : good B s n -> limits_ok s -> bnd B x -> (n + 1 <= N)%Z ->
    always (fun s' => sound B s' (n + 1) /\ limits_ok s') (td_add cfg s x).
  Proof. intros HG HL Hx Hn. apply (@add_buffer_sound s n [x]); auto. Qed.

  (** ** TDigest *)
  Definition tsound (s : tdigest F) (its : list F) : Prop := sound B s (Z.of_nat (length its)) /\ limits_ok s.

  Theorem td_exec_sound ops : Forall (td_ok_op B) ops -> (Z.of_nat (length (items_of ops)) <= N)%Z ->
    always (fun r => tsound (fst r) (items_of ops)) (exec (t_digest cfg) td_new ops).
  Proof.
    intros Hok Hlen. destruct HN as (N1 & N2 & N3).
    assert (1 <= N /\ 2 * N <= fint /\ N <= 2 ^ 53)%Z as HN' by lia.
    refine (@exec_always_len F FO FL cfg B N tsound _ ops td_new [] Hok Hlen _).
    - intros s its o Ho HL [HI HI']. destruct o as [x|l|v|q]; cbn [step items_of td_ok_op] in *.
      + rewrite app_length in HL. cbn [length] in HL. eapply always_bind with (P := fun s' => tsound s' (its ++ [x])); [|cbn; auto].
        cbn [d_add t_digest]. eapply always_mono; [apply add_one_sound with (1 := proj1 HI); auto; lia|].
        intros s' H. unfold tsound. rewrite app_length. cbn [length]. rewrite Nat2Z.inj_add. exact H.
      + rewrite app_nil_r in *. rewrite app_length in HL. eapply always_bind with (P := fun s' => tsound s' (its ++ l)); [|cbn; auto].
        cbn [d_add_buffer t_digest]. eapply always_mono; [apply add_buffer_sound with (1 := proj1 HI); auto; lia|].
        intros s' H. unfold tsound. rewrite app_length, Nat2Z.inj_add. exact H.
      + rewrite app_nil_r in *. cbn [d_est_q t_digest]. rewrite bind_assoc.
        destruct (@td_est_q_total F FO FL s v) as [a ->]; auto.
        { eapply Forall_impl; [|exact (proj2 (proj1 HI))]. intros c. apply bnd_nn. }
        cbn. split; auto.
      + rewrite app_nil_r in *. cbn [d_est_v t_digest]. rewrite bind_assoc. destruct Ho as (r & Hr & Hr1).
        destruct (@td_est_v_total F FO FL s (Z.of_nat (length its)) q r) as [a ->]; auto; try lia; [apply HI|]. cbn. split; auto.
    - split; [|exact new_limits]. split; [exact new_good|]. cbn. lia.
  Qed.

  Hypothesis HM : mild_rounding B N.

  Theorem td_history_unit ops : Forall (td_ok_op B) ops -> items_of ops <> [] -> (Z.of_nat (length (items_of ops)) <= N)%Z ->
    always (fun r => forall v, fisnan v = false -> exists a, d_est_q (t_digest cfg) (fst r) v = Ret (fst r, a) /\ unit_val a)
      (exec (t_digest cfg) td_new ops).
  Proof.
    intros Hok Hne Hlen. eapply always_mono; [apply td_exec_sound; auto|]. intros [s l] [HS _] v Hv. cbn [fst] in *.
    destruct (@est_q_unit F FO FL B N HB HN HM s (Z.of_nat (length (items_of ops))) v HS) as (a & Ha & Hu); auto.
    { destruct (items_of ops); [congruence|]. cbn [length] in *. lia. }
    exists a. split; auto. cbn [d_est_q t_digest]. now rewrite Ha.
  Qed.

  (** ** ParTDigest *)
  Variables (threads capacity : nat).
  Hypothesis Hth : (1 <= threads)%nat.
  Notation PD := (par_t_digest cfg threads capacity td_new).
  Notation flush := (pt_flush cfg threads td_new).

  Lemma min_key_in {A} (key : A -> F) l : l <> [] -> Forall (fun a => fisnan (key a) = false) l ->
    exists d, min_by_key key l = Ret (Some d) /\ In d l.
  Proof.
    destruct l as [|a l]; [congruence|]. intros _. cbn [min_by_key]. unfold liftM. revert a.
    induction l as [|x l IH]; intros a H; cbn [foldM].
    - exists a. split; [reflexivity|now left].
    - inversion H as [|? ? Ha H']; subst. inversion H' as [|? ? Hx H'']; subst.
      unfold cmp_unwrap. rewrite fcmp_val. apply fisnan_false in Ha as Ha'. apply fisnan_false in Hx as Hx'.
      destruct (xcmp (fval (key a)) (fval (key x))) as [c|] eqn:E.
      2:{ exfalso. destruct (fval (key a)) as [|[|]|], (fval (key x)) as [|[|]|]; cbn in E; congruence. }
      cbn [unwrap bind]. destruct c.
      + destruct (IH a) as (d & D1 & D2); [constructor; auto|]. exists d. split; auto. destruct D2; [left|right; right]; auto.
      + destruct (IH a) as (d & D1 & D2); [constructor; auto|]. exists d. split; auto. destruct D2; [left|right; right]; auto.
      + destruct (IH x) as (d & D1 & D2); [constructor; auto|]. exists d. split; auto. right. exact D2.
  Qed.
  Lemma max_key_in {A} (key : A -> F) l : l <> [] -> Forall (fun a => fisnan (key a) = false) l ->
    exists d, max_by_key key l = Ret (Some d) /\ In d l.
  Proof.
    destruct l as [|a l]; [congruence|]. intros _. cbn [max_by_key]. unfold liftM. revert a.
    induction l as [|x l IH]; intros a H; cbn [foldM].
    - exists a. split; [reflexivity|now left].
    - inversion H as [|? ? Ha H']; subst. inversion H' as [|? ? Hx H'']; subst.
      unfold cmp_unwrap. rewrite fcmp_val. apply fisnan_false in Ha as Ha'. apply fisnan_false in Hx as Hx'.
      destruct (xcmp (fval (key a)) (fval (key x))) as [c|] eqn:E.
      2:{ exfalso. destruct (fval (key a)) as [|[|]|], (fval (key x)) as [|[|]|]; cbn in E; congruence. }
      cbn [unwrap bind]. destruct c.
      + destruct (IH x) as (d & D1 & D2); [constructor; auto|]. exists d. split; auto. right. exact D2.
      + destruct (IH x) as (d & D1 & D2); [constructor; auto|]. exists d. split; auto. right. exact D2.
      + destruct (IH a) as (d & D1 & D2); [constructor; auto|]. exists d. split; auto. destruct D2; [left|right; right]; auto.
  Qed.

  Definition psound (s : pardigest F) (its : list F) : Prop :=
    exists n, sound B (pt_digest s) n /\ limits_ok (pt_digest s) /\ Forall (bnd B) (pt_buffer s) /\
      (n + Z.of_nat (length (pt_buffer s)) = Z.of_nat (length its))%Z.

  Lemma chunks_sound css : Forall (fun c => c <> [] /\ Forall (bnd B) c /\ (Z.of_nat (length c) <= N)%Z) css ->
    exists ds, always (fun r => r = ds) (mapM (fun chunk => td_add_buffer cfg td_new chunk) css) /\
      Forall2 (fun c d => sound B d (Z.of_nat (length c)) /\ c <> []) css ds.
  Proof.
    induction 1 as [|c css (H1 & H2 & H3) H (ds & D1 & D2)]; cbn [mapM].
    - exists []. split; [reflexivity|constructor].
    - assert (always (fun s' => sound B s' (0 + Z.of_nat (length c)) /\ limits_ok s') (td_add_buffer cfg td_new c)) as HA.
      { apply add_buffer_sound; auto; [exact new_good|exact new_limits]. }
      assert (exists d, td_add_buffer cfg td_new c = Ret d) as [d Ed].
      { unfold td_add_buffer in *. destruct (@add_centroid_buffer_cases F FO cfg Hlib td_new (map unit_cen c)) as [E|[(_ & E)|(? & ? & ? & ? & _ & _ & _ & _ & _ & _ & _ & E)]].
        - rewrite E in HA. destruct HA.
        - rewrite E. eauto.
        - rewrite E. eauto. }
      rewrite Ed in *. cbn [always] in HA. exists (d :: ds). split.
      + cbn [bind]. eapply always_bind; [exact D1|]. intros x ->. reflexivity.
      + constructor; auto. split; auto. apply HA.
  Qed.

  Lemma flush_sound s its : psound s its -> (Z.of_nat (length its) <= N)%Z ->
    always (fun s' => pt_buffer s' = [] /\ sound B (pt_digest s') (Z.of_nat (length its)) /\ limits_ok (pt_digest s')) (flush s).
  Proof.
    intros (n & HS & HL & Hb & En) HlenN. destruct HN as (N1 & N2 & N3). unfold pt_flush.
    destruct (pt_buffer s) as [|x b] eqn:Eb.
    { cbn. split; auto. cbn in En. rewrite <- En, Z.add_0_r. auto. }
    rewrite <- Eb in *.
    assert (pt_buffer s <> []) as Hne by (rewrite Eb; discriminate). clear x b Eb.
    assert (0 <= n)%Z as Hn0.
    { destruct HS as [[(zs & Hz & E) _] _]. pose proof (sumZ_pos (wts_pos Hz)). lia. }
    assert (chunks threads (pt_buffer s) = Ret (chunks_list threads (pt_buffer s))) as -> by (unfold chunks; destruct threads; [lia|reflexivity]). cbn [bind].
    assert (Forall (fun c => c <> [] /\ Forall (bnd B) c /\ (Z.of_nat (length c) <= N)%Z) (chunks_list threads (pt_buffer s))) as Hcs.
    { apply Forall_forall. intros c Hc.
      assert (incl c (pt_buffer s) /\ (length c <= length (pt_buffer s))%nat) as [I1 I2].
      { rewrite <- (@chunks_list_concat _ threads (pt_buffer s)) by lia. apply in_split in Hc as (l1 & l2 & ->). rewrite concat_app. cbn [concat]. split.
        - intros y Hy. apply in_or_app. right. apply in_or_app. now left.
        - rewrite !app_length. lia. }
      split; [|split].
      - pose proof (@chunks_list_bounds _ threads (pt_buffer s) Hth) as HH. rewrite Forall_forall in HH. specialize (HH c Hc). intros ->. cbn in HH. lia.
      - apply Forall_forall. intros y Hy. rewrite Forall_forall in Hb. apply Hb, I1, Hy.
      - lia. }
    destruct (chunks_sound Hcs) as (ds & D1 & D2).
    eapply always_bind; [exact D1|]. intros ? ->.
    assert (ds <> []) as Hds.
    { intros ->. inversion D2 as [E|]; subst. apply Hne. rewrite <- (@chunks_list_concat _ threads (pt_buffer s)) by lia. now rewrite <- E. }
    assert (Forall (fun d => bnd B (t_min d) /\ bnd B (t_max d)) ds) as Hlim.
    { clear -D2. induction D2 as [|c d css ds [[_ H] Hc] D2 IH]; constructor; auto. apply H. destruct c; [congruence|]. cbn [length]. lia. }
    destruct (@min_key_in _ (@t_min F) ds Hds) as (dmin & E1 & I1).
    { eapply Forall_impl; [|exact Hlim]. intros d [H _]. now apply bnd_nn with B. }
    destruct (@max_key_in _ (@t_max F) ds Hds) as (dmax & E2 & I2).
    { eapply Forall_impl; [|exact Hlim]. intros d [_ H]. now apply bnd_nn with B. }
    rewrite E1, E2. cbn [bind unwrap]. cbv zeta. rewrite Forall_forall in Hlim.
    assert (Forall2 (fun c d => holds d (Z.of_nat (length c))) (chunks_list threads (pt_buffer s)) ds) as D3.
    { clear -D2. induction D2 as [|c d css ds [H Hc] D2 IH]; constructor; auto. apply H. }
    destruct (flat_holds Hth D3) as (zs & W1 & W2). rewrite chunks_list_concat in W2 by lia.
    eapply always_bind; [apply add_sound with (n := n) (zb := zs); auto|].
    - exact (proj1 HS).
    - split; left; cbn; apply Hlim; auto.
    - clear -D2. induction D2 as [|c d css ds [H Hc] D2 IH]; cbn [flat_map]; [constructor|]. apply Forall_app. split; auto. apply H.
    - lia.
    - intros d' Hd'. cbn [always pt_buffer pt_digest]. split; auto. rewrite W2, En in Hd'. exact Hd'.
  Qed.

  Lemma flushed_sound s its : pt_buffer s = [] -> sound B (pt_digest s) (Z.of_nat (length its)) -> limits_ok (pt_digest s) -> psound s its.
  Proof. intros E H1 H2. exists (Z.of_nat (length its)). rewrite E. split; [auto|split; [auto|split; [constructor|cbn; lia]]]. Qed.

  Lemma add_psound s its l : psound s its -> Forall (bnd B) l -> (Z.of_nat (length (its ++ l)) <= N)%Z ->
    always (fun s' => psound s' (its ++ l)) (pt_add_buffer cfg threads capacity td_new s l).
  Proof.
    intros (n & HS & HL & Hb & En) Hl Hlen. unfold pt_add_buffer. cbv zeta.
    assert (psound {| pt_digest := pt_digest s; pt_buffer := pt_buffer s ++ l |} (its ++ l)) as HP.
    { exists n. cbn [pt_digest pt_buffer]. split; [auto|split; [auto|split; [apply Forall_app; auto|]]]. rewrite !app_length. lia. }
    destruct (_ <? _)%nat; [|exact HP]. eapply always_mono; [apply flush_sound; eauto|]. intros s' (A & C & D). apply flushed_sound; auto.
  Qed.

  Theorem pt_exec_sound ops : Forall (td_ok_op B) ops -> (Z.of_nat (length (items_of ops)) <= N)%Z ->
    always (fun r => psound (fst r) (items_of ops)) (exec PD (pt_new td_new) ops).
  Proof.
    destruct HN as (N1 & N2 & N3).
    assert (forall ops s its, Forall (td_ok_op B) ops -> (Z.of_nat (length (its ++ items_of ops)) <= N)%Z -> psound s its ->
              always (fun r => psound (fst r) (its ++ items_of ops)) (exec PD s ops)) as HX.
    { clear ops. induction ops as [|o ops IH]; intros s its HQ HL HP.
      - cbn. now rewrite app_nil_r.
      - inversion HQ as [|? ? Ho HQ']; subst. rewrite items_of_cons, app_assoc in HL. cbn [exec].
        assert (Z.of_nat (length (its ++ items_of [o])) <= N)%Z as HL' by (rewrite !app_length in *; lia).
        eapply always_bind with (P := fun r => psound (fst r) (its ++ items_of [o])).
        + destruct o as [x|l|v|q]; cbn [step items_of td_ok_op] in *.
          * cbn [d_add par_t_digest]. unfold pt_add. eapply always_bind; [apply add_psound; eauto|]. intros s' Hs'. exact Hs'.
          * rewrite app_nil_r in *. cbn [d_add_buffer par_t_digest]. eapply always_bind; [apply add_psound; eauto|]. intros s' Hs'. exact Hs'.
          * rewrite app_nil_r in *. cbn [d_est_q par_t_digest]. rewrite bind_assoc. eapply always_bind; [apply flush_sound; eauto|]. intros s' (A & C & D).
            cbn beta. destruct (@td_est_q_total F FO FL (pt_digest s') v) as [a ->]; auto.
            { eapply Forall_impl; [|exact (proj2 (proj1 C))]. intros c. apply bnd_nn. }
            cbn. apply flushed_sound; auto.
          * rewrite app_nil_r in *. cbn [d_est_v par_t_digest]. rewrite bind_assoc. eapply always_bind; [apply flush_sound; eauto|]. intros s' (A & C & D).
            cbn beta. destruct Ho as (r & Hr & Hr1).
            destruct (@td_est_v_total F FO FL (pt_digest s') (Z.of_nat (length its)) q r) as [a ->]; auto; try lia; [apply C|]. cbn. apply flushed_sound; auto.
        + intros [s' a] H. eapply always_bind; [apply IH; [assumption|exact HL|exact H]|].
          intros [s'' b] H'. cbn [fst always] in *. rewrite items_of_cons, app_assoc. exact H'. }
    intros Hok Hlen. apply (HX ops (pt_new td_new) []); auto.
    exists 0%Z. split; [split; [exact new_good|lia]|]. split; [exact new_limits|]. split; [constructor|reflexivity].
  Qed.

  Theorem pt_history_unit ops : Forall (td_ok_op B) ops -> items_of ops <> [] -> (Z.of_nat (length (items_of ops)) <= N)%Z ->
    always (fun r => d_count PD (fst r) = Ret (Z.of_nat (length (items_of ops))) /\
        (forall v, fisnan v = false -> exists s' a, d_est_q PD (fst r) v = Ret (s', a) /\ unit_val a) /\
        (forall q p, fval q = XFin p -> 0 <= p <= 1 -> exists s' a, d_est_v PD (fst r) q = Ret (s', a)))
      (exec PD (pt_new td_new) ops).
  Proof.
    intros Hok Hne Hlen. eapply always_mono; [apply pt_exec_sound; auto|]. intros [s l] HS. cbn [fst] in *. destruct HN as (N1 & N2 & N3).
    pose proof (flush_sound HS Hlen) as HF.
    assert (forall X (f : pardigest F -> M X), (forall s', pt_buffer s' = [] /\ sound B (pt_digest s') (Z.of_nat (length (items_of ops))) /\ limits_ok (pt_digest s') ->
              exists a, f s' = Ret a) -> exists s' a, flush s = Ret s' /\ f s' = Ret a /\
              sound B (pt_digest s') (Z.of_nat (length (items_of ops)))) as HK.
    { intros X f K.
      assert (exists s', flush s = Ret s') as [s' Es].
      { revert HF. unfold pt_flush. destruct (pt_buffer s) as [|x b]; [eauto|].
        assert (chunks threads (x :: b) = Ret (chunks_list threads (x :: b))) as -> by (unfold chunks; destruct threads; [lia|reflexivity]). cbn [bind].
        assert (forall css, (exists ds, mapM (fun chunk => td_add_buffer cfg td_new chunk) css = Ret ds) \/ mapM (fun chunk => td_add_buffer cfg td_new chunk) css = Panic) as HM1.
        { clear -Hlib. induction css as [|c css IH]; cbn [mapM]; [left; eauto|]. unfold td_add_buffer at 1 3.
          destruct (@add_centroid_buffer_cases F FO cfg Hlib td_new (map unit_cen c)) as [E|[(_ & E)|(? & ? & ? & ? & _ & _ & _ & _ & _ & _ & _ & E)]]; rewrite E; cbn [bind]; auto.
          - destruct IH as [(ds & ->)| ->]; cbn; eauto.
          - destruct IH as [(ds & ->)| ->]; cbn; eauto. }
        destruct (HM1 (chunks_list threads (x :: b))) as [(ds & ->)| ->]; cbn [bind]; [|intros []].
        assert (forall A (key : A -> F) (a : A) (l : list A) (g : comparison -> A -> A -> A), (exists r, foldM (fun m x => do c <- cmp_unwrap (key m) (key x); Ret (g c x m)) a l = Ret r) \/
                  foldM (fun m x => do c <- cmp_unwrap (key m) (key x); Ret (g c x m)) a l = Panic) as HM2.
        { clear. intros A key a l g. revert a. induction l as [|y l IH]; intros a; cbn [foldM]; [left; eauto|].
          unfold cmp_unwrap. destruct (fcmp (key a) (key y)) as [c|]; cbn [unwrap bind]; [apply IH|right; reflexivity]. }
        destruct ds as [|d0 ds]; cbn [min_by_key max_by_key bind unwrap]; [intros []|]. unfold liftM.
        destruct (HM2 _ (@t_min F) d0 ds (fun c x m => match c with Gt => x | _ => m end)) as [(r1 & ->)| ->]; cbn [bind unwrap]; [|intros []].
        destruct (HM2 _ (@t_max F) d0 ds (fun c x m => match c with Gt => m | _ => x end)) as [(r2 & ->)| ->]; cbn [bind unwrap]; [|intros []].
        cbv zeta. match goal with |- context [add_centroid_buffer cfg ?d ?b] => destruct (@add_centroid_buffer_cases F FO cfg Hlib d b) as [E|[(_ & E)|(? & ? & ? & ? & _ & _ & _ & _ & _ & _ & _ & E)]] end;
          rewrite E; cbn [bind]; [intros []|eauto|eauto]. }
      rewrite Es in HF. cbn [always] in HF. destruct (K s' HF) as [a Ha]. exists s', a. split; [exact Es|split; [exact Ha|apply HF]]. }
    split; [|split].
    - destruct HS as (n & HS & HL & Hb & En). cbn [d_count par_t_digest].
      assert (0 <= n)%Z as Hn0.
      { destruct HS as [[(zs & Hz & E) _] _]. pose proof (sumZ_pos (wts_pos Hz)). lia. }
      destruct (@holds_count F FO FL (pt_digest s) n (proj1 (proj1 HS))) as [_ ->]; [lia|lia|]. cbn [bind]. now rewrite En.
    - intros v Hv.
      assert (1 <= Z.of_nat (length (items_of ops)) <= N)%Z as Hn1.
      { destruct (items_of ops); [congruence|]. cbn [length] in *. lia. }
      destruct (HK F (fun s' => td_est_q (pt_digest s') v)) as (s' & a & E1 & E2 & E3).
      { intros s' (_ & C & _). destruct (@est_q_unit F FO FL B N HB HN HM (pt_digest s') _ v C Hn1 Hv) as (a & Ha & _). eauto. }
      exists s', a. split; [cbn [d_est_q par_t_digest]; rewrite E1; cbn [bind]; rewrite E2; reflexivity|].
      destruct (@est_q_unit F FO FL B N HB HN HM (pt_digest s') _ v E3 Hn1 Hv) as (a' & Ha & Hu). congruence.
    - intros q p Hq Hp.
      destruct (HK F (fun s' => td_est_v (pt_digest s') q)) as (s' & a & E1 & E2 & E3).
      { intros s' (_ & C & _). apply (@td_est_v_total F FO FL (pt_digest s') (Z.of_nat (length (items_of ops))) q p); auto; try lia. apply C. }
      exists s', a. cbn [d_est_v par_t_digest]. rewrite E1. cbn [bind]. rewrite E2. reflexivity.
  Qed.
End Hist.
