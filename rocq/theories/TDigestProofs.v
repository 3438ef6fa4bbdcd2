(** The t-digest, in any arithmetic satisfying [FloatLaws]: the merge loop, weights and counts, extremes, queries. *)
From Coq Require Import List Arith ZArith Lia Bool Permutation Sorted Reals Lra.
From Flocq Require Import Core.
From Verif Require Import Base Floats XReal Digest TDigest Spec FloatFacts History.
Set Implicit Arguments.

Section Groups.
  Context {F : Type} {FO : FloatOps F}.
  Variable cfg : tcfg F.
  Notation cen := (centroid F).

  (** what a group of neighbouring centroids is merged into *)
  Definition agg_w (g : list cen) : F :=
    match g with [] => f0 | c :: g' => fold_left (fun a d => fadd a (weight d)) g' (weight c) end.
  Definition agg_s (g : list cen) : F :=
    match g with [] => f0 | c :: g' => fold_left (fun a d => fadd a (fmul (mean d) (weight d))) g' (fmul (mean c) (weight c)) end.
  Definition agg (g : list cen) : cen := Cen (fdiv (agg_s g) (agg_w g)) (agg_w g).

  (** [merges n w0 lim gs]: the greedy grouping: [w0] the weight already emitted, [lim] the current limit *)
  Inductive merges (n : F) : F -> F -> list (list cen) -> Prop :=
  | mg_last w0 lim g : g <> [] -> (2 <= length g -> fle (agg_w g) lim = true) -> merges n w0 lim [g]
  | mg_more w0 lim g c g' gs : g <> [] -> (2 <= length g -> fle (agg_w g) lim = true) ->
      fle (fadd (agg_w g) (weight c)) lim = false ->
      merges n (fadd w0 (agg_w g)) (fsub (w_limit cfg n (fadd w0 (agg_w g))) (fadd w0 (agg_w g))) ((c :: g') :: gs) ->
      merges n w0 lim (g :: (c :: g') :: gs).

  Lemma agg_w_snoc g c : g <> [] -> agg_w (g ++ [c]) = fadd (agg_w g) (weight c).
  Proof. destruct g as [|a g]; [congruence|]. intros _. cbn. now rewrite fold_left_app. Qed.
  Lemma agg_s_snoc g c : g <> [] -> agg_s (g ++ [c]) = fadd (agg_s g) (fmul (mean c) (weight c)).
  Proof. destruct g as [|a g]; [congruence|]. intros _. cbn. now rewrite fold_left_app. Qed.

  Lemma merges_ne n w0 lim gs : merges n w0 lim gs -> gs <> [] /\ Forall (fun g => g <> []) gs.
  Proof.
    induction 1 as [w0 lim g Hg Hl|w0 lim g c g' gs Hg Hl Hf H IH].
    - split; [discriminate|]. constructor; auto.
    - split; [discriminate|]. constructor; [auto|apply IH].
  Qed.

  Lemma merge_go_groups n rest : forall w0 lim cur, cur <> [] -> (2 <= length cur -> fle (agg_w cur) lim = true) ->
    exists gs, merges n w0 lim gs /\ concat gs = cur ++ rest /\
               merge_go cfg n w0 lim (agg_w cur) (agg_s cur) rest = map agg gs.
  Proof.
    induction rest as [|c rest IH]; intros w0 lim cur Hne Hlim; cbn [merge_go].
    - exists [cur]. split; [now constructor|]. split; [cbn; now rewrite app_nil_r|]. reflexivity.
    - destruct (fle (fadd (agg_w cur) (weight c)) lim) eqn:E.
      + destruct (IH w0 lim (cur ++ [c])) as (gs & H1 & H2 & H3).
        { destruct cur; discriminate. } { intros _. now rewrite agg_w_snoc. }
        exists gs. split; auto. split; [rewrite H2, <- app_assoc; reflexivity|].
        rewrite <- H3. now rewrite agg_w_snoc, agg_s_snoc.
      + destruct (IH (fadd w0 (agg_w cur)) (fsub (w_limit cfg n (fadd w0 (agg_w cur))) (fadd w0 (agg_w cur))) [c]) as (gs & H1 & H2 & H3).
        { discriminate. } { cbn. lia. }
        destruct (merges_ne H1) as [Hn Hall]. destruct gs as [|g gs]; [congruence|].
        inversion Hall as [|? ? Hg _]; subst. destruct g as [|c' g']; [congruence|].
        cbn in H2. injection H2 as -> H2.
        exists (cur :: (c :: g') :: gs). split; [now constructor|]. split; [cbn; now rewrite H2|].
        change (map agg (cur :: (c :: g') :: gs)) with (agg cur :: map agg ((c :: g') :: gs)). rewrite <- H3. reflexivity.
  Qed.

  Lemma merge_all_groups l : l <> [] ->
    exists gs, merges (sum_weights l) f0 (w_limit cfg (sum_weights l) f0) gs /\ concat gs = l /\ merge_all cfg l = map agg gs.
  Proof.
    intros Hl. destruct l as [|c l]; [congruence|]. unfold merge_all.
    destruct (@merge_go_groups (sum_weights (c :: l)) l f0 (w_limit cfg (sum_weights (c :: l)) f0) [c]) as (gs & H1 & H2 & H3).
    { discriminate. } { cbn. lia. }
    exists gs. auto.
  Qed.

  (** what one [add_centroid_buffer] does *)
  Lemma add_centroid_buffer_spec (Hlib : lib_ok cfg) s buf :
    buf ++ t_centroids s <> [] ->
    (length (buf ++ t_centroids s) <= 1 \/ Forall (fun c => fisnan (mean c) = false) (buf ++ t_centroids s)) ->
    exists sorted gs first lst,
      Permutation sorted (buf ++ t_centroids s) /\
      (Forall (fun c => fisnan (mean c) = false) sorted -> StronglySorted (fun a b => fle (mean a) (mean b) = true) sorted) /\
      head sorted = Some first /\ last_error sorted = Some lst /\
      merges (sum_weights sorted) f0 (w_limit cfg (sum_weights sorted) f0) gs /\ concat gs = sorted /\
      add_centroid_buffer cfg s buf =
        Ret {| t_centroids := map agg gs; t_min := fmin (t_min s) (mean first); t_max := fmax (t_max s) (mean lst);
               t_tick := S (t_tick s) |}.
  Proof.
    intros Hne Hnn. unfold add_centroid_buffer. remember (buf ++ t_centroids s) as b eqn:Eb.
    assert (exists sorted, sort_centroids cfg (t_tick s) b = Ret sorted /\ Permutation sorted b /\
       (Forall (fun c => fisnan (mean c) = false) sorted -> StronglySorted (fun a b => fle (mean a) (mean b) = true) sorted)) as (sorted & E1 & E2 & E3).
    { destruct b as [|c [|d b]].
      - congruence.
      - exists [c]. split; [reflexivity|]. split; [reflexivity|]. intros _. repeat constructor.
      - exists (tc_sort cfg (t_tick s) (c :: d :: b)). split; [|split].
        + unfold sort_centroids. destruct (existsb _ _) eqn:E; [|reflexivity]. exfalso.
          destruct Hnn as [Hnn|Hnn]; [cbn in Hnn; lia|]. apply existsb_exists in E as (x & Hx & Hx').
          rewrite Forall_forall in Hnn. rewrite (Hnn x Hx) in Hx'. discriminate.
        + apply (lo_perm Hlib).
        + intros Hs. assert (Forall (fun c => fisnan (mean c) = false) (c :: d :: b)) as Hb.
          { eapply Permutation_Forall; [|exact Hs]. apply (lo_perm Hlib). }
          pose proof (lo_sorted Hlib (t_tick s) Hb) as Hsrt.
          remember (tc_sort cfg (t_tick s) (c :: d :: b)) as l eqn:El. clear -Hsrt.
          induction l as [|a l IH]; constructor.
          * apply IH. intros i j x y Hij Hx Hy. apply (Hsrt (S i) (S j) x y); auto. lia.
          * apply Forall_forall. intros y Hy. apply In_nth_error in Hy as [k Hk]. apply (Hsrt 0 (S k) a y); auto. lia. }
    destruct b as [|b0 b1]; [congruence|].
    rewrite E1. cbn [bind].
    assert (sorted <> []) as Hsn by (intros ->; apply Permutation_nil in E2; congruence).
    destruct (merge_all_groups Hsn) as (gs & G1 & G2 & G3).
    assert (exists first, head sorted = Some first) as [first Hf] by (destruct sorted; [congruence|eexists; reflexivity]).
    assert (exists lst, last_error sorted = Some lst) as [lst Hl].
    { clear -Hsn. induction sorted as [|a l IH]; [congruence|]. destruct l as [|b l]; [exists a; reflexivity|].
      destruct IH as [x Hx]; [discriminate|]. exists x. exact Hx. }
    exists sorted, gs, first, lst. rewrite Hf, Hl. cbn [unwrap bind]. rewrite G3. auto 10.
  Qed.

  Lemma add_centroid_buffer_nil s buf : buf ++ t_centroids s = [] -> add_centroid_buffer cfg s buf = Ret s.
  Proof. intros H. unfold add_centroid_buffer. now rewrite H. Qed.

  Lemma add_centroid_buffer_nan s buf c : In c (buf ++ t_centroids s) -> fisnan (mean c) = true -> 2 <= length (buf ++ t_centroids s) ->
    add_centroid_buffer cfg s buf = Panic.
  Proof.
    intros Hc Hn Hl. unfold add_centroid_buffer. destruct (buf ++ t_centroids s) as [|a [|b l]]; cbn in Hl; try lia.
    unfold sort_centroids. assert (existsb (fun c => fisnan (mean c)) (a :: b :: l) = true) as ->; [|reflexivity].
    apply existsb_exists. exists c. auto.
  Qed.

  (** either it panics, or the spec applies *)
  Lemma add_centroid_buffer_cases (Hlib : lib_ok cfg) s buf :
    add_centroid_buffer cfg s buf = Panic \/ (buf ++ t_centroids s = [] /\ add_centroid_buffer cfg s buf = Ret s) \/
    exists sorted gs first lst,
      Permutation sorted (buf ++ t_centroids s) /\
      (Forall (fun c => fisnan (mean c) = false) sorted -> StronglySorted (fun a b => fle (mean a) (mean b) = true) sorted) /\
      (length sorted <= 1 \/ Forall (fun c => fisnan (mean c) = false) sorted) /\
      head sorted = Some first /\ last_error sorted = Some lst /\
      merges (sum_weights sorted) f0 (w_limit cfg (sum_weights sorted) f0) gs /\ concat gs = sorted /\
      add_centroid_buffer cfg s buf =
        Ret {| t_centroids := map agg gs; t_min := fmin (t_min s) (mean first); t_max := fmax (t_max s) (mean lst);
               t_tick := S (t_tick s) |}.
  Proof.
    destruct (buf ++ t_centroids s) as [|b0 b1] eqn:Eb.
    - right. left. split; auto. now apply add_centroid_buffer_nil.
    - destruct (existsb (fun c => fisnan (mean c)) (b0 :: b1)) eqn:E.
      + apply existsb_exists in E as (x & Hx & Hn).
        destruct b1 as [|b2 b3].
        * right. right. destruct (@add_centroid_buffer_spec Hlib s buf) as (sorted & gs & first & lst & A).
          { rewrite Eb. discriminate. } { left. rewrite Eb. cbn. lia. }
          exists sorted, gs, first, lst. rewrite Eb in A. destruct A as (A1 & A2 & A3). split; [auto|]. split; [auto|]. split; [|auto].
          left. apply Permutation_length in A1. cbn in A1. lia.
        * left. apply (@add_centroid_buffer_nan s buf x); auto; rewrite Eb; [exact Hx|cbn; lia].
      + assert (Forall (fun c => fisnan (mean c) = false) (b0 :: b1)) as Hnn.
        { apply Forall_forall. intros x Hx. destruct (fisnan (mean x)) eqn:Ex; auto. rewrite <- E. symmetry. apply existsb_exists. exists x; auto. }
        right. right. destruct (@add_centroid_buffer_spec Hlib s buf) as (sorted & gs & first & lst & A).
        { rewrite Eb. discriminate. } { right. now rewrite Eb. }
        exists sorted, gs, first, lst. rewrite Eb in A. destruct A as (A1 & A2 & A3). split; [auto|]. split; [auto|]. split; [|auto].
        right. eapply Permutation_Forall; [|exact Hnn]. now symmetry.
  Qed.
End Groups.

(* ------------------------------------------------------------------ *)
(** ** Weights *)
Section Weights.
  Context {F : Type} {FO : FloatOps F} {FL : FloatLaws F}.
  Notation cen := (centroid F).

  Definition sumZ (l : list Z) : Z := fold_right Z.add 0%Z l.
  Lemma sumZ_app a b : sumZ (a ++ b) = (sumZ a + sumZ b)%Z.
  Proof. induction a as [|x a IH]; cbn; auto. fold (sumZ (a ++ b)) (sumZ a). rewrite IH. lia. Qed.

  (** the centroids' weights are the positive integers [zs] *)
  Definition wts (cs : list cen) (zs : list Z) : Prop :=
    Forall2 (fun c z => fval (weight c) = XFin (IZR z) /\ (1 <= z)%Z) cs zs.

  Lemma wts_pos cs zs : wts cs zs -> Forall (fun z => (1 <= z)%Z) zs.
  Proof. induction 1 as [|c z cs zs [_ Hz] H IH]; constructor; auto. Qed.
  Lemma sumZ_pos zs : Forall (fun z => (1 <= z)%Z) zs -> (Z.of_nat (length zs) <= sumZ zs)%Z.
  Proof. induction 1 as [|z zs Hz H IH]; cbn [sumZ fold_right length]; [lia|]. fold (sumZ zs). lia. Qed.

  Lemma wts_perm cs cs' zs : Permutation cs cs' -> wts cs zs -> exists zs', wts cs' zs' /\ Permutation zs zs'.
  Proof.
    intros HP. revert zs. induction HP as [|x l l' HP IH|x y l|l l' l'' H1 IH1 H2 IH2]; intros zs H.
    - inversion H; subst. exists []. split; constructor.
    - inversion H as [|? z ? zs' Hz H']; subst. destruct (IH _ H') as (zs2 & A & B). exists (z :: zs2). split; constructor; auto.
    - inversion H as [|? z1 ? zs1 Hz1 H1]; subst. inversion H1 as [|? z2 ? zs2 Hz2 H2]; subst.
      exists (z2 :: z1 :: zs2). split; [repeat constructor; tauto|constructor].
    - destruct (IH1 _ H) as (z1 & A & B). destruct (IH2 _ A) as (z2 & C & D). exists z2. split; auto. now transitivity z1.
  Qed.
  Lemma sumZ_perm zs zs' : Permutation zs zs' -> sumZ zs = sumZ zs'.
  Proof. induction 1; cbn [sumZ fold_right]; fold sumZ in *; unfold sumZ in *; try lia. Qed.

  Lemma agg_w_int g zs : wts g zs -> g <> [] -> (sumZ zs <= fint)%Z -> fval (agg_w g) = XFin (IZR (sumZ zs)).
  Proof.
    intros H Hne Hs. destruct H as [|c z g zs [Hc Hz] H]; [congruence|]. cbn [agg_w].
    cbn [sumZ fold_right] in *. fold (sumZ zs) in *. clear Hne.
    revert Hc Hz Hs. generalize (weight c) as a. intros a. revert a z.
    induction H as [|d y g zs [Hd Hy] H IH]; intros a z Ha Hz Hs; cbn [fold_left].
    - cbn. now rewrite Z.add_0_r.
    - cbn [sumZ fold_right] in Hs. fold (sumZ zs) in Hs. pose proof (sumZ_pos (wts_pos H)) as Hp.
      rewrite (IH (fadd a (weight d)) (z + y)%Z); try lia.
      + cbn [sumZ fold_right]. fold (sumZ zs). f_equal. f_equal. lia.
      + rewrite (fadd_fin Ha Hd), <- plus_IZR. apply frnd_exact, fint_exact. lia.
  Qed.

  Lemma sum_weights_int cs zs : wts cs zs -> (sumZ zs <= fint)%Z -> (sumZ zs <= 2 ^ 53)%Z -> fval (sum_weights cs) = XFin (IZR (sumZ zs)).
  Proof.
    intros H Hs Hs2. unfold sum_weights. rewrite (@fsum64_ints F FO FL (map weight cs) zs).
    - apply frnd_exact, fint_exact. pose proof (sumZ_pos (wts_pos H)). unfold sumZ in *. lia.
    - rewrite map_map. clear -H. induction H as [|c z cs zs [Hc _] H IH]; cbn; f_equal; auto.
    - eapply Forall_impl; [|exact (wts_pos H)]. cbn. lia.
    - exact Hs2.
  Qed.

  Lemma wts_concat gs : forall zs, wts (concat gs) zs -> exists zss, Forall2 wts gs zss /\ concat zss = zs.
  Proof.
    induction gs as [|g gs IH]; intros zs H; cbn [concat] in H.
    - inversion H; subst. exists []. split; constructor.
    - apply Forall2_app_inv_l in H as (z1 & z2 & H1 & H2 & ->). destruct (IH _ H2) as (zss & A & B).
      exists (z1 :: zss). split; [constructor; auto|]. cbn. now rewrite B.
  Qed.

  Lemma agg_wts gs zs : wts (concat gs) zs -> Forall (fun g => g <> []) gs -> (sumZ zs <= fint)%Z ->
    exists zss, concat zss = zs /\ Forall2 wts gs zss /\ wts (map agg gs) (map sumZ zss) /\ sumZ (map sumZ zss) = sumZ zs.
  Proof.
    intros H Hne Hs. destruct (wts_concat _ H) as (zss & A & B). exists zss. split; auto. split; auto. subst zs. clear H.
    induction A as [|g z gs zss Hg A IH]; cbn [map concat].
    - split; [constructor|reflexivity].
    - inversion Hne as [|? ? Hg' Hne']; subst. cbn [concat] in Hs. rewrite sumZ_app in Hs.
      assert (0 <= sumZ z)%Z. { pose proof (sumZ_pos (wts_pos Hg)). lia. }
      assert (0 <= sumZ (concat zss))%Z.
      { assert (Forall (fun z => (1 <= z)%Z) (concat zss)) as HH; [|pose proof (sumZ_pos HH); lia].
        clear -A. induction A; cbn; [constructor|]. apply Forall_app. split; auto. eapply wts_pos; eauto. }
      destruct IH as [C D]; auto; [lia|]. split.
      + constructor; auto. cbn [agg weight]. split; [apply agg_w_int; auto; lia|].
        pose proof (sumZ_pos (wts_pos Hg)) as Hp. destruct Hg; [congruence|]. cbn [length] in Hp. lia.
      + cbn [sumZ fold_right]. fold (sumZ (map sumZ zss)). rewrite D, sumZ_app. reflexivity.
  Qed.

  (** the state holds [n] items *)
  Definition holds (s : tdigest F) (n : Z) : Prop := exists zs, wts (t_centroids s) zs /\ sumZ zs = n.

  Variable cfg : tcfg F.
  Hypothesis Hlib : lib_ok cfg.

  Lemma add_centroid_buffer_weight s n buf zb : holds s n -> wts buf zb -> (n + sumZ zb <= fint)%Z ->
    whenever (fun s' => holds s' (n + sumZ zb)) (add_centroid_buffer cfg s buf).
  Proof.
    intros (zs & Hz & Hn) Hb Hs.
    destruct (add_centroid_buffer_cases Hlib s buf) as [->|[(E & ->)|(sorted & gs & first & lst & A1 & A2 & A3 & A4 & A5 & A6 & A7 & ->)]].
    - exact I.
    - cbn. apply app_eq_nil in E as [-> E]. inversion Hb; subst. exists zs. split; auto. cbn. lia.
    - cbn [whenever holds t_centroids].
      assert (wts (buf ++ t_centroids s) (zb ++ zs)) as HW by (apply Forall2_app; auto).
      destruct (wts_perm (Permutation_sym A1) HW) as (zo & H1 & H2).
      pose proof (sumZ_perm H2) as E. rewrite sumZ_app in E. rewrite <- A7 in H1.
      destruct (@agg_wts gs zo) as (zss & B1 & B2 & B3 & B4); auto.
      { eapply merges_ne; eauto. } { lia. }
      exists (map sumZ zss). split; auto. lia.
  Qed.

  Lemma unit_wts (l : list F) : wts (map unit_cen l) (repeat 1%Z (length l)) /\ sumZ (repeat 1%Z (length l)) = Z.of_nat (length l).
  Proof.
    split.
    - induction l; cbn [map length repeat]; constructor; auto. split; [apply fval_f1|lia].
    - induction l; cbn [length repeat sumZ fold_right]; auto. fold (sumZ (repeat 1%Z (length l))). lia.
  Qed.

  Lemma holds_count s n : holds s n -> (n <= fint)%Z -> (n <= 2 ^ 53)%Z ->
    fval (total_weight s) = XFin (IZR n) /\ td_count s = Ret n.
  Proof.
    intros (zs & Hz & <-) H1 H2. pose proof (sum_weights_int Hz H1 H2) as H. split; [exact H|].
    unfold td_count, total_weight. pose proof (sumZ_pos (wts_pos Hz)) as Hp.
    rewrite (ftoZ_fin H).
    - cbn [unwrap]. f_equal. apply Ztrunc_IZR.
    - split; [apply (IZR_lt (-1)); lia|]. apply IZR_lt. lia.
  Qed.

  Definition counts_ok (s : tdigest F) (its : list F) : Prop :=
    (Z.of_nat (length its) <= fint)%Z -> holds s (Z.of_nat (length its)).

  Lemma td_step_count s its o : counts_ok s its ->
    whenever (fun r => counts_ok (fst r) (its ++ items_of [o])) (step (t_digest cfg) s o).
  Proof.
    intros H. destruct o as [x|l|v|q]; cbn [step items_of].
    - eapply whenever_bind with (P := fun s' => counts_ok s' (its ++ [x])); [|cbn; auto].
      cbn [d_add t_digest]. unfold td_add.
      apply whenever_mono with (P := fun s' => (Z.of_nat (length its) + 1 <= fint)%Z -> holds s' (Z.of_nat (length its) + 1)).
      + destruct (Z_le_gt_dec (Z.of_nat (length its) + 1) fint) as [Hle|Hgt].
        * destruct (unit_wts [x]) as [U1 U2]. cbn [map length repeat] in U1.
          eapply whenever_mono; [apply add_centroid_buffer_weight with (n := Z.of_nat (length its)); [apply H; lia|exact U1|cbn; lia]|].
          cbn. auto.
        * eapply whenever_mono; [apply whenever_true|]. intros s' _ HH. lia.
      + intros s' Hs' HH. rewrite app_length in *. cbn [length] in *.
        replace (Z.of_nat (length its + 1)) with (Z.of_nat (length its) + 1)%Z in * by lia. auto.
    - rewrite app_nil_r. eapply whenever_bind with (P := fun s' => counts_ok s' (its ++ l)); [|cbn; auto].
      cbn [d_add_buffer t_digest]. unfold td_add_buffer.
      apply whenever_mono with (P := fun s' => (Z.of_nat (length its) + Z.of_nat (length l) <= fint)%Z -> holds s' (Z.of_nat (length its) + Z.of_nat (length l))).
      + destruct (Z_le_gt_dec (Z.of_nat (length its) + Z.of_nat (length l)) fint) as [Hle|Hgt].
        * destruct (unit_wts l) as [U1 U2].
          eapply whenever_mono; [apply add_centroid_buffer_weight with (n := Z.of_nat (length its)); [apply H; lia|exact U1|lia]|].
          rewrite U2. auto.
        * eapply whenever_mono; [apply whenever_true|]. intros s' _ HH. lia.
      + intros s' Hs' HH. rewrite app_length in *. rewrite Nat2Z.inj_add in *. auto.
    - rewrite app_nil_r. cbn [d_est_q t_digest]. rewrite bind_assoc. eapply whenever_bind; [apply whenever_true|]. intros a _. exact H.
    - rewrite app_nil_r. cbn [d_est_v t_digest]. rewrite bind_assoc. eapply whenever_bind; [apply whenever_true|]. intros a _. exact H.
  Qed.

  Lemma td_exec_counts ops : whenever (fun r => counts_ok (fst r) (items_of ops)) (exec (t_digest cfg) td_new ops).
  Proof.
    refine (@exec_whenever F (t_digest cfg) counts_ok _ ops td_new [] _).
    - intros s its o H. now apply td_step_count.
    - intros _. exists []. split; [constructor|reflexivity].
  Qed.

  Theorem td_history_count ops : (Z.of_nat (length (items_of ops)) <= fint)%Z -> (Z.of_nat (length (items_of ops)) <= 2 ^ 53)%Z ->
    whenever (fun r => d_count (t_digest cfg) (fst r) = Ret (Z.of_nat (length (items_of ops))) /\
                       fval (total_weight (fst r)) = XFin (IZR (Z.of_nat (length (items_of ops)))))
      (exec (t_digest cfg) td_new ops).
  Proof.
    intros H1 H2. eapply whenever_mono; [apply td_exec_counts|]. intros [s a] H. cbn [fst] in *.
    destruct (holds_count (H H1) H1 H2) as [A B]. split; auto.
  Qed.
End Weights.
