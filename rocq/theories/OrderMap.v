(** The RC sketches only compare items: running them on the images of the items under an increasing map, with the same coins, gives
    the images of the buffers. *)
From Coq Require Import List Arith ZArith NArith Lia Bool Permutation Sorted Reals Lra.
From Verif Require Import Base Floats Digest Spec FloatFacts History TDigest RCSketch RCProofs RCHist RCTop RCObs RC2 RC2Top.
Set Implicit Arguments.

(* ------------------------------------------------------------------ *)
(** * Two computations in lock step: the same coins lead to related outcomes *)
Fixpoint lock {A B} (R : A -> B -> Prop) (m : M A) (n : M B) : Prop :=
  match m, n with
  | Ret a, Ret b => R a b
  | Panic, Panic => True
  | Diverge, Diverge => True
  | Flip f, Flip g => forall c, lock R (f c) (g c)
  | _, _ => False
  end.

Lemma lock_bind {A B A' B'} (R : A -> B -> Prop) (R' : A' -> B' -> Prop) m n f g :
  lock R m n -> (forall a b, R a b -> lock R' (f a) (g b)) -> lock R' (bind m f) (bind n g).
Proof. revert n. induction m as [a| | |k IH]; intros [b| | |k']; cbn [lock bind]; intros H Hf; try contradiction; auto. Qed.
Lemma lock_mono {A B} (R R' : A -> B -> Prop) m n : lock R m n -> (forall a b, R a b -> R' a b) -> lock R' m n.
Proof. revert n. induction m as [a| | |k IH]; intros [b| | |k']; cbn [lock]; intros H Hf; try contradiction; auto. Qed.
Lemma lock_refl {A} (R : A -> A -> Prop) m : (forall a, R a a) -> lock R m m.
Proof. intros H. induction m; cbn [lock]; auto. Qed.
Lemma lock_run {A B} (R : A -> B -> Prop) m n coins : lock R m n ->
  match run m coins, run n coins with
  | Returned a, Returned b => R a b
  | Panicked, Panicked | Diverged, Diverged | NeedsCoins, NeedsCoins => True
  | _, _ => False
  end.
Proof.
  revert n coins. induction m as [a| | |k IH]; intros [b| | |k'] coins; cbn [lock run]; intros H; try contradiction; auto.
  destruct coins as [|c coins]; [exact I|apply IH, H].
Qed.
Lemma lock_expect {A B} (R : A -> B -> Prop) m n (u : A -> Rdefinitions.R) (w : B -> Rdefinitions.R) :
  lock R m n -> (forall a b, R a b -> u a = w b) -> expect u m = expect w n.
Proof.
  revert n. induction m as [a| | |k IH]; intros [b| | |k']; cbn [lock expect]; intros H E; try contradiction; auto.
  now rewrite (IH false (k' false)), (IH true (k' true)) by auto.
Qed.
Lemma lock_always {A B} (R : A -> B -> Prop) m n (Q : A -> Prop) (Q' : B -> Prop) :
  lock R m n -> (forall a b, R a b -> Q' b -> Q a) -> always Q' n -> always Q m.
Proof. revert n. induction m as [a| | |k IH]; intros [b| | |k']; cbn [lock always]; intros H E HA; try contradiction; eauto. Qed.

(* ------------------------------------------------------------------ *)
(** * Sorting commutes with increasing maps *)
Section SortMap.
  Context {A B : Type}.
  Variables (ltA : A -> A -> bool) (ltB : B -> B -> bool) (h : A -> B) (P : A -> Prop).
  Hypothesis Hlt : forall a b, P a -> P b -> ltA a b = true -> ltB (h a) (h b) = true \/ h a = h b.
  Hypothesis Hge : forall a b, P a -> P b -> ltA a b = false -> ltB (h a) (h b) = false.

  Lemma insert_map x l : P x -> Forall P l -> StronglySorted (fun a b => ltA b a = false) l ->
    map h (insert_sorted ltA x l) = insert_sorted ltB (h x) (map h l).
  Proof using Hlt Hge.
    intros Hx. induction l as [|y l IH]; intros Hl HS; cbn [insert_sorted map]; [reflexivity|].
    inversion Hl as [|? ? Hy Hl']; subst. inversion HS as [|? ? HS' HF]; subst. destruct (ltA y x) eqn:E.
    - cbn [map]. rewrite IH by assumption. destruct (Hlt Hy Hx E) as [->|Ey]; [reflexivity|].
      destruct (ltB (h y) (h x)) eqn:E2; [reflexivity|]. rewrite Ey. destruct l as [|z l]; [reflexivity|]. cbn [map insert_sorted].
      inversion HF as [|? ? Hz _]; subst. inversion Hl' as [|? ? Pz _]; subst. now rewrite <- Ey, (Hge Pz Hy Hz).
    - now rewrite (Hge Hy Hx E).
  Qed.
  Lemma isort_map l : Forall P l -> (forall l', (exists p, l = p ++ l') -> StronglySorted (fun a b => ltA b a = false) (isort ltA l')) ->
    map h (isort ltA l) = isort ltB (map h l).
  Proof using Hlt Hge.
    induction l as [|x l IH]; intros Hl HS; cbn [isort map]; [reflexivity|]. inversion Hl; subst. rewrite insert_map.
    - rewrite IH; [reflexivity|assumption|]. intros l' (p & ->). apply HS. exists (x :: p). reflexivity.
    - assumption.
    - eapply Permutation_Forall; [apply isort_perm|assumption].
    - apply HS. exists [x]. reflexivity.
  Qed.
End SortMap.

Section Ordered.
  Context {F G : Type} {FO : FloatOps F} {FL : FloatLaws F} {GO : FloatOps G}.

  (** [f] is increasing on the items [P]: it keeps or identifies what it does not reverse *)
  Record increasing (P : F -> Prop) (f : F -> G) : Prop := {
    inc_nan : forall x, P x -> fisnan (f x) = fisnan x;
    inc_lt : forall x y, P x -> P y -> flt x y = true -> flt (f x) (f y) = true \/ f x = f y;
    inc_ge : forall x y, P x -> P y -> flt x y = false -> flt (f x) (f y) = false }.

  Variables (P : F -> Prop) (f : F -> G).
  Hypothesis Hf : increasing P f.

  Lemma sort_map l : Forall P l -> lock (fun s s' => s' = map f s /\ Forall P s) (sort_by_key (fun x => x) l) (sort_by_key (fun x => x) (map f l)).
  Proof using Hf FL.
    intros Hl. destruct l as [|a [|b l]]; cbn [sort_by_key map lock]; [now split|now split|].
    change (f a :: f b :: map f l) with (map f (a :: b :: l)). set (l0 := a :: b :: l) in *.
    replace (existsb (fun a => fisnan a) (map f l0)) with (existsb (fun a => fisnan a) l0).
    2: { clear - Hl Hf. induction Hl as [|x l2 Hx _ IH]; cbn [existsb map]; [reflexivity|]. now rewrite IH, (inc_nan Hf x Hx). }
    destruct (existsb (fun a => fisnan a) l0) eqn:E; [exact I|]. cbn [lock]. split.
    - symmetry. apply (@isort_map F G (fun a b => flt a b) (fun a b => flt a b) f P); [apply (inc_lt Hf)|apply (inc_ge Hf)|exact Hl|].
      intros l' (p & Ep).
      assert (Forall (fun x : F => fisnan x = false) l') as Hn.
      { apply Forall_forall. intros x Hx. destruct (fisnan x) eqn:Ex; [|reflexivity]. rewrite <- E. symmetry. apply existsb_exists. exists x. split; [|exact Ex].
        rewrite Ep. apply in_app_iff. auto. }
      pose proof (@isort_sorted F FO FL F (fun x : F => x) l' Hn) as HS. clear - HS FL. induction HS as [|x l2 HS IH HF]; constructor; [exact IH|].
      eapply Forall_impl; [|exact HF]. unfold kle. intros y Hy. destruct (flt y x) eqn:E; [|reflexivity].
      pose proof (fle_flt_trans x y x Hy E) as H. now rewrite flt_irrefl in H.
    - eapply Permutation_Forall; [apply isort_perm|exact Hl].
  Qed.

  (* ---------------------------------------------------------------- *)
  (** ** RCSketch *)
  Definition mlevel (l : @level F) : @level G := (map f (fst l), snd l).
  Definition good (lv : list (@level F)) : Prop := Forall (fun l => Forall P (fst l)) lv.
  Definition rel (lv : list (@level F)) (lv' : list (@level G)) : Prop := lv' = map mlevel lv /\ good lv.

  Lemma every_other_map {A B} (h : A -> B) l : forall c, map h (every_other c l) = every_other c (map h l).
  Proof. induction l as [|x l IH]; intros c; cbn [every_other map]; [reflexivity|]. destruct c; cbn [map]; now rewrite IH. Qed.
  Lemma every_other_P (Q : F -> Prop) l : forall c, Forall Q l -> Forall Q (every_other c l).
  Proof. induction l as [|x l IH]; intros c H; cbn [every_other]; [constructor|]. inversion H; subst. destruct c; [auto|constructor; auto]. Qed.
  Lemma Forall_firstn' {A} (Q : A -> Prop) n l : Forall Q l -> Forall Q (firstn n l).
  Proof. intros H. rewrite <- (firstn_skipn n l) in H. now apply Forall_app in H. Qed.
  Lemma Forall_skipn' {A} (Q : A -> Prop) n l : Forall Q l -> Forall Q (skipn n l).
  Proof. intros H. rewrite <- (firstn_skipn n l) in H. now apply Forall_app in H. Qed.

  Definition pair_rel (p : list F * list F) (p' : list G * list G) : Prop :=
    p' = (map f (fst p), map f (snd p)) /\ Forall P (fst p) /\ Forall P (snd p).
  Lemma compact_map b i : Forall P b -> lock pair_rel (rc_compact b i Default) (rc_compact (map f b) i Default).
  Proof using Hf FL.
    intros Hb. unfold rc_compact. eapply lock_bind; [exact (sort_map Hb)|]. cbn beta. intros s s' [-> Hs]. rewrite map_length.
    destruct (length s <? i); [exact I|]. cbn [lock]. intros c. unfold pair_rel. cbn [fst snd]. split.
    - now rewrite firstn_map, skipn_map, every_other_map.
    - split; [now apply Forall_firstn'|now apply every_other_P, Forall_skipn'].
  Qed.

  Lemma index_map k bs fast b c : compact_index k bs fast (map f b) c = compact_index k bs fast b c.
  Proof. unfold compact_index, get_compact_index. now rewrite map_length. Qed.

  Lemma fill_drain_map k bs fast fuel :
    (forall lv items, good lv -> Forall P items -> lock rel (fill k bs fast Default fuel lv items) (fill k bs fast Default fuel (map mlevel lv) (map f items))) /\
    (forall b c up, Forall P b -> good up -> lock rel (drain k bs fast Default fuel b c up) (drain k bs fast Default fuel (map f b) c (map mlevel up))).
  Proof using Hf FL.
    induction fuel as [|fuel [IHf IHd]]; split.
    - intros. cbn. exact I.
    - intros. cbn. exact I.
    - intros lv items Hlv Hit. cbn [fill].
      assert (exists b c up, ensure lv = ((b, c), up) /\ ensure (map mlevel lv) = ((map f b, c), map mlevel up) /\ Forall P b /\ good up) as (b & c & up & -> & -> & Hb & Hup).
      { destruct lv as [|[b c] up]; cbn [ensure map mlevel fst snd]; [exists [], 0%N, []; repeat split; constructor|].
        inversion Hlv; subst. exists b, c, up. repeat split; assumption. }
      destruct items as [|x items]; cbn [map].
      + cbn [lock]. split; [reflexivity|]. constructor; assumption.
      + change (f x :: map f items) with (map f (x :: items)). set (its := x :: items) in *. rewrite map_length. destruct (bs <? length b); [exact I|].
        rewrite firstn_map, skipn_map, <- map_app. eapply lock_bind.
        * apply IHd; [apply Forall_app; split; [exact Hb|now apply Forall_firstn']|exact Hup].
        * intros lv1 lv2 [-> H1]. apply IHf; [exact H1|now apply Forall_skipn'].
    - intros b c up Hb Hup. cbn [drain]. rewrite map_length. destruct (length b <? bs).
      + cbn [lock]. split; [reflexivity|constructor; assumption].
      + rewrite index_map. eapply lock_bind; [apply (@lock_refl _ eq); reflexivity|]. intros [i c'] ? <-.
        eapply lock_bind; [exact (compact_map i Hb)|]. intros [b1 out] [b2 out2] (E & H1 & H2). cbn [fst snd] in *. injection E as -> ->.
        eapply lock_bind; [exact (IHf up out Hup H2)|]. intros up1 up2 [-> Hu]. apply IHd; assumption.
  Qed.

  Lemma insert_one_map k bs fast fuel lv x : good lv -> P x -> lock rel (insert_one k bs fast Default fuel lv x) (insert_one k bs fast Default fuel (map mlevel lv) (f x)).
  Proof using Hf FL.
    intros Hlv Hx. unfold insert_one.
    assert (exists b c up, ensure lv = ((b, c), up) /\ ensure (map mlevel lv) = ((map f b, c), map mlevel up) /\ Forall P b /\ good up) as (b & c & up & -> & -> & Hb & Hup).
    { destruct lv as [|[b c] up]; cbn [ensure map mlevel fst snd]; [exists [], 0%N, []; repeat split; constructor|].
      inversion Hlv; subst. exists b, c, up. repeat split; assumption. }
    change [f x] with (map f [x]). rewrite <- map_app, map_length. assert (Forall P (b ++ [x])) as Hb' by (apply Forall_app; auto).
    destruct (length (b ++ [x]) <? bs).
    - cbn [lock]. split; [reflexivity|constructor; assumption].
    - rewrite index_map. eapply lock_bind; [apply (@lock_refl _ eq); reflexivity|]. intros [i c'] ? <-.
      eapply lock_bind; [exact (compact_map i Hb')|]. intros [b1 out] [b2 out2] (E & H1 & H2). cbn [fst snd] in *. injection E as -> ->.
      eapply lock_bind; [exact (proj1 (fill_drain_map k bs fast fuel) up out Hup H2)|]. intros up1 up2 [-> Hu]. cbn [lock]. split; [reflexivity|constructor; assumption].
  Qed.

  Lemma held_map lv : held (map mlevel lv) = held lv.
  Proof. unfold held. induction lv as [|l lv IH]; cbn [map fold_right]; [reflexivity|]. unfold mlevel at 1. cbn [fst]. now rewrite map_length, IH. Qed.
  Lemma fuel_map bs lv n : rc_fuel bs (map mlevel lv) n = rc_fuel bs lv n.
  Proof. unfold rc_fuel. now rewrite held_map. Qed.

  Definition mrc (s : rc F) : rc G := mkRC (map mlevel (rc_levels s)) (rc_input_length s) (rc_k s) (rc_size s) (rc_count s).
  Definition rrel (s : rc F) (s' : rc G) : Prop := s' = mrc s /\ good (rc_levels s).
  Definition mop (o : rop F) : rop G := match o with RAdd x => RAdd (f x) | RBuf l => RBuf (map f l) | RCustom l fast m => RCustom (map f l) fast m end.

  Lemma chunks_fuel_map {A B} (h : A -> B) n : forall fuel l, chunks_fuel fuel n (map h l) = map (map h) (chunks_fuel fuel n l).
  Proof.
    induction fuel as [|fuel IH]; intros l; cbn [chunks_fuel map]; [reflexivity|].
    destruct l as [|x l]; [reflexivity|]. cbn [map]. change (h x :: map h l) with (map h (x :: l)). now rewrite firstn_map, skipn_map, IH.
  Qed.
  Lemma chunks_map_P n l : Forall P l -> lock (fun cs cs' => cs' = map (map f) cs /\ Forall (Forall P) cs) (chunks n l) (chunks n (map f l)).
  Proof.
    intros Hl. unfold chunks. destruct n; [exact I|]. cbn [lock]. unfold chunks_list. rewrite map_length. split; [apply chunks_fuel_map|].
    generalize (length l). intros fuel. revert l Hl. induction fuel as [|fuel IH]; intros l Hl; cbn [chunks_fuel]; [constructor|].
    destruct l as [|x l]; [constructor|]. constructor; [now apply Forall_firstn'|]. apply IH. now apply Forall_skipn'.
  Qed.

  Lemma rc_chunks_map s items fast : good (rc_levels s) -> Forall P items -> lock rel (rc_chunks s items fast Default) (rc_chunks (mrc s) (map f items) fast Default).
  Proof using Hf FL.
    intros Hs Hi. unfold rc_chunks. change (rc_size (mrc s)) with (rc_size s). change (rc_k (mrc s)) with (rc_k s). change (rc_levels (mrc s)) with (map mlevel (rc_levels s)).
    eapply lock_bind; [exact (chunks_map_P _ Hi)|]. intros cs cs' [-> Hcs]. revert Hs. generalize (rc_levels s) as lv.
    induction Hcs as [|c cs Hc _ IH]; intros lv Hlv; cbn [map foldM]; [cbn [lock]; split; [reflexivity|exact Hlv]|].
    rewrite map_length, fuel_map. eapply lock_bind; [exact (proj1 (fill_drain_map _ _ _ _) lv c Hlv Hc)|]. intros lv1 lv2 [-> H1]. apply IH. exact H1.
  Qed.

  Definition op_ok (o : rop F) : Prop := match o with RAdd x => P x | RBuf l => Forall P l | RCustom l _ m => Forall P l /\ m = Default end.
  Lemma rstep_map s o : good (rc_levels s) -> op_ok o -> lock rrel (rstep s o) (rstep (mrc s) (mop o)).
  Proof using Hf FL.
    intros Hs Ho. destruct o as [x|l|l fast m]; cbn [rstep mop op_ok] in *.
    - unfold rc_add. change (rc_size (mrc s)) with (rc_size s). change (rc_k (mrc s)) with (rc_k s). change (rc_levels (mrc s)) with (map mlevel (rc_levels s)). rewrite fuel_map.
      eapply lock_bind; [exact (insert_one_map _ _ _ _ Hs Ho)|]. intros lv lv' [-> H]. cbn [lock]. split; [reflexivity|exact H].
    - unfold rc_add_buffer. eapply lock_bind; [exact (rc_chunks_map _ _ Hs Ho)|]. intros lv lv' [-> H]. cbn [lock]. rewrite map_length. split; [reflexivity|exact H].
    - destruct Ho as [Ho ->]. unfold rc_add_buffer_custom. eapply lock_bind; [exact (rc_chunks_map _ _ Hs Ho)|]. intros lv lv' [-> H]. cbn [lock]. rewrite map_length. split; [reflexivity|exact H].
  Qed.

  Theorem rc_run_map (lg : F -> F) (lg' : G -> G) n k ops : calc_buffer_size lg n k = calc_buffer_size lg' n k -> Forall op_ok ops ->
    lock rrel (rc_run lg n k ops) (rc_run lg' n k (map mop ops)).
  Proof using Hf FL.
    intros Hc Ho. unfold rc_run, rc_new. rewrite <- Hc.
    assert (forall s, good (rc_levels s) -> lock rrel (rexec s ops) (rexec (mrc s) (map mop ops))) as H.
    { induction Ho as [|o ops Ho _ IH]; intros s Hs; unfold rexec; cbn [map foldM]; [cbn [lock]; split; [reflexivity|exact Hs]|].
      eapply lock_bind; [exact (rstep_map _ _ Hs Ho)|]. intros s1 s2 [-> H1]. apply IH. exact H1. }
    eapply lock_bind with (R := fun s s' => s' = mrc s /\ rc_levels s = []).
    - eapply lock_bind; [apply (@lock_refl _ eq); reflexivity|]. intros bs ? <-. cbn [lock]. split; reflexivity.
    - intros s s' [-> E]. apply H. rewrite E. constructor.
  Qed.

  (** the queries *)
  Lemma rank_from_map lv v w : good lv -> (forall x, P x -> fle (f x) w = fle x v) -> forall i, rank_from i (map mlevel lv) w = rank_from i lv v.
  Proof.
    intros Hlv Hv. induction Hlv as [|[b c] lv Hb _ IH]; intros i; cbn [map mlevel rank_from fst snd]; [reflexivity|]. rewrite IH. do 3 f_equal.
    cbn [fst] in Hb. clear - Hb Hv. induction Hb as [|x b2 Hx _ IH2]; cbn [map filter]; [reflexivity|]. rewrite (Hv x Hx). destruct (fle x v); cbn [length]; now rewrite IH2.
  Qed.
  Lemma interpolate_map s s' v w : rrel s s' -> (forall x, P x -> fle (f x) w = fle x v) -> interpolate_rank s' w = interpolate_rank s v.
  Proof.
    intros [-> Hs] Hv. unfold interpolate_rank. change (rc_levels (mrc s)) with (map mlevel (rc_levels s)). rewrite map_length. destruct (64 <? _); [reflexivity|].
    f_equal. now apply rank_from_map.
  Qed.
  Theorem rank_map (lg : F -> F) (lg' : G -> G) n k ops v w : calc_buffer_size lg n k = calc_buffer_size lg' n k -> Forall op_ok ops ->
    (forall x, P x -> fle (f x) w = fle x v) -> lock eq (rank_after lg n k ops v) (rank_after lg' n k (map mop ops) w).
  Proof using Hf FL.
    intros Hc Ho Hv. unfold rank_after. eapply lock_bind; [exact (rc_run_map _ _ _ _ Hc Ho)|]. intros s s' H. rewrite (interpolate_map v w H Hv). now apply lock_refl.
  Qed.

  (* ---------------------------------------------------------------- *)
  (** ** RCSketch2 *)
  Definition mlevel2 (l : @level2 F) : @level2 G := (mlevel (fst l), snd l).
  Definition good2 (lv : list (@level2 F)) : Prop := Forall (fun l => Forall P (fst (fst l))) lv.
  Definition rel2 (p : nat * list (@level2 F)) (p' : nat * list (@level2 G)) : Prop := p' = (fst p, map mlevel2 (snd p)) /\ good2 (snd p).

  Lemma index2_map fast l : compact_index2 fast (mlevel2 l) = compact_index2 fast l.
  Proof. destruct l as [[b c] [ns ss]]. unfold compact_index2, get_compact_index2, mlevel2, mlevel. cbn [fst snd]. now rewrite map_length. Qed.
  Lemma extend_next_map k up out : good2 up -> Forall P out -> extend_next k (map mlevel2 up) (map f out) = map mlevel2 (extend_next k up out) /\ good2 (extend_next k up out).
  Proof.
    intros Hup Ho. destruct up as [|[[b c] s] up]; cbn [map extend_next mlevel2 mlevel fst snd].
    - split; [reflexivity|]. constructor; [exact Ho|constructor].
    - inversion Hup; subst. split; [now rewrite <- map_app|]. constructor; [|assumption]. cbn [fst]. apply Forall_app. auto.
  Qed.
  Lemma compress_map k fast n : forall size lv, good2 lv ->
    lock rel2 (compress_from k fast Default n size lv) (compress_from k fast Default n size (map mlevel2 lv)).
  Proof using Hf FL.
    induction n as [|n IH]; intros size lv Hlv; cbn [compress_from]; [cbn [lock]; split; [reflexivity|exact Hlv]|].
    destruct lv as [|[[b c] s] up]; cbn [map]; [exact I|]. inversion Hlv as [|? ? Hb Hup]; subst. cbn [fst] in Hb.
    change (mlevel2 (b, c, s)) with (map f b, c, s). cbn beta iota.
    eapply lock_bind; [apply (@lock_refl _ eq); reflexivity|]. intros cap ? <-. rewrite map_length. destruct (length b <? cap).
    - eapply lock_bind; [exact (IH size up Hup)|]. intros [sz lv1] [sz' lv2] [E H]. cbn [fst snd] in *. injection E as -> ->. cbn [lock]. split; [reflexivity|]. constructor; assumption.
    - rewrite <- (index2_map fast (b, c, s)). change (mlevel2 (b, c, s)) with (map f b, c, s).
      eapply lock_bind; [apply (@lock_refl _ eq); reflexivity|]. intros [i c'] ? <-.
      eapply lock_bind; [exact (compact_map i Hb)|]. intros [b1 out] [b2 out2] (E & H1 & H2). cbn [fst snd] in *. injection E as -> ->. rewrite map_length.
      destruct (size <? length b - i); [exact I|]. eapply lock_bind; [apply (@lock_refl _ eq); reflexivity|]. intros s' ? <-.
      destruct (extend_next_map k Hup H2) as [-> Hn].
      eapply lock_bind; [exact (IH _ _ Hn)|]. intros [sz lv1] [sz' lv2] [E H]. cbn [fst snd] in *. injection E as -> ->. cbn [lock]. split; [reflexivity|]. constructor; assumption.
  Qed.
  Lemma total_capacity_map lv : total_capacity (map mlevel2 lv) = total_capacity lv.
  Proof. induction lv as [|[l s] lv IH]; cbn [map total_capacity]; [reflexivity|]. unfold mlevel2 at 1. cbn [fst snd]. now rewrite IH. Qed.
  Lemma full_map k fast size lv : good2 lv -> lock rel2 (compress_if_full k fast Default size lv) (compress_if_full k fast Default size (map mlevel2 lv)).
  Proof using Hf FL.
    intros H. unfold compress_if_full. rewrite total_capacity_map. eapply lock_bind; [apply (@lock_refl _ eq); reflexivity|]. intros cap ? <-.
    destruct (size <? cap); [cbn [lock]; split; [reflexivity|exact H]|]. rewrite map_length. now apply compress_map.
  Qed.
  Lemma bottom_map lv items : good2 lv -> Forall P items ->
    lock (fun l l' => l' = map mlevel2 l /\ good2 l) (extend_bottom lv items) (extend_bottom (map mlevel2 lv) (map f items)).
  Proof.
    intros H Hi. destruct lv as [|[[b c] s] up]; cbn [map extend_bottom mlevel2 mlevel fst snd lock]; [exact I|]. inversion H; subst.
    split; [now rewrite <- map_app|]. constructor; [|assumption]. cbn [fst]. apply Forall_app. auto.
  Qed.
  Lemma insert2_map k fast size lv x : good2 lv -> P x -> lock rel2 (insert2 k fast Default size lv x) (insert2 k fast Default size (map mlevel2 lv) (f x)).
  Proof using Hf FL.
    intros H Hx. unfold insert2. change [f x] with (map f [x]). eapply lock_bind; [exact (bottom_map H (Forall_cons _ Hx (Forall_nil P)))|]. intros l l' [-> Hl]. now apply full_map.
  Qed.
  Lemma batch_map k fast fuel : forall size lv items, good2 lv -> Forall P items ->
    lock rel2 (insert_batch k fast Default fuel size lv items) (insert_batch k fast Default fuel size (map mlevel2 lv) (map f items)).
  Proof using Hf FL.
    induction fuel as [|fuel IH]; intros size lv items H Hi; destruct items as [|x items]; cbn [map insert_batch]; try (cbn [lock]; split; [reflexivity|exact H]); [exact I|].
    change (f x :: map f items) with (map f (x :: items)). set (its := x :: items) in *. rewrite total_capacity_map, map_length.
    eapply lock_bind; [apply (@lock_refl _ eq); reflexivity|]. intros cap ? <-. destruct (cap <? size); [exact I|]. rewrite firstn_map, skipn_map.
    eapply lock_bind; [exact (bottom_map H (Forall_firstn' _ Hi))|]. intros l l' [-> Hl].
    eapply lock_bind; [exact (full_map _ _ _ Hl)|]. intros [sz lv1] [sz' lv2] [E H1]. cbn [fst snd] in *. injection E as -> ->.
    apply IH; [exact H1|now apply Forall_skipn'].
  Qed.
  Definition mrc2 (s : rc2 F) : rc2 G := mkRC2 (map mlevel2 (r2_levels s)) (r2_size s) (r2_k s) (r2_count s).
  Definition rrel2 (s : rc2 F) (s' : rc2 G) : Prop := s' = mrc2 s /\ good2 (r2_levels s).
  Lemma rstep2_map extra s o : good2 (r2_levels s) -> op_ok o -> lock rrel2 (rstep2 extra s o) (rstep2 extra (mrc2 s) (mop o)).
  Proof using Hf FL.
    intros Hs Ho. destruct o as [x|l|l fast m]; cbn [rstep2 mop op_ok] in *.
    - unfold rc2_add. eapply lock_bind; [exact (insert2_map _ _ _ Hs Ho)|]. intros [sz lv1] [sz' lv2] [E H1]. cbn [fst snd] in *. injection E as -> ->. cbn [lock]. split; [reflexivity|exact H1].
    - unfold rc2_add_buffer, rc2_add_buffer_custom. rewrite map_length. eapply lock_bind; [exact (batch_map _ _ _ _ Hs Ho)|]. intros [sz lv1] [sz' lv2] [E H1]. cbn [fst snd] in *. injection E as -> ->. cbn [lock]. split; [reflexivity|exact H1].
    - destruct Ho as [Ho ->]. unfold rc2_add_buffer_custom. rewrite map_length. eapply lock_bind; [exact (batch_map _ _ _ _ Hs Ho)|]. intros [sz lv1] [sz' lv2] [E H1]. cbn [fst snd] in *. injection E as -> ->. cbn [lock]. split; [reflexivity|exact H1].
  Qed.
  Theorem rc2_run_map extra k ops : Forall op_ok ops -> lock rrel2 (rc2_run extra k ops) (rc2_run extra k (map mop ops)).
  Proof using Hf FL.
    intros Ho. unfold rc2_run. change (@rc2_new G k) with (mrc2 (@rc2_new F k)).
    assert (good2 (r2_levels (@rc2_new F k))) as H by (constructor; constructor). revert H. generalize (@rc2_new F k) as s.
    induction Ho as [|o ops Ho _ IH]; intros s Hs; unfold rexec2; cbn [map foldM]; [cbn [lock]; split; [reflexivity|exact Hs]|].
    eapply lock_bind; [exact (rstep2_map _ _ _ Hs Ho)|]. intros s1 s2 [-> H1]. apply IH. exact H1.
  Qed.
  Lemma as_rc_map s s' : rrel2 s s' -> rrel (as_rc s) (as_rc s').
  Proof.
    intros [-> H]. split.
    - unfold as_rc, mrc, mrc2. cbn [r2_levels rc_levels r2_count rc_input_length rc_k rc_size rc_count]. f_equal. now rewrite !map_map.
    - unfold as_rc. cbn [rc_levels]. unfold good. rewrite Forall_map. exact H.
  Qed.
  Theorem rank2_map extra k ops v w : Forall op_ok ops -> (forall x, P x -> fle (f x) w = fle x v) ->
    lock eq (rank_after2 extra k ops v) (rank_after2 extra k (map mop ops) w).
  Proof using Hf FL.
    intros Ho Hv. unfold rank_after2. eapply lock_bind; [exact (rc2_run_map _ _ Ho)|]. intros s s' H. unfold interpolate_rank2. rewrite (interpolate_map v w (as_rc_map H) Hv). now apply lock_refl.
  Qed.
End Ordered.

(* ------------------------------------------------------------------ *)
(** * Values, for a strictly increasing map of a float type to itself *)
Section Values.
  Context {F : Type} {FO : FloatOps F} {FL : FloatLaws F}.
  Definition strictly (P : F -> Prop) (f : F -> F) : Prop :=
    (forall x, P x -> fisnan (f x) = fisnan x) /\ (forall x y, P x -> P y -> flt (f x) (f y) = flt x y).
  Variables (P : F -> Prop) (f : F -> F).
  Hypothesis Hs : strictly P f.
  Lemma strictly_increasing : increasing P f.
  Proof using Hs. destruct Hs as [H1 H2]. split; [exact H1| |]; intros x y Hx Hy E; rewrite (H2 x y Hx Hy); auto. Qed.
  Definition mcen (c : centroid F) : centroid F := Cen (f (mean c)) (weight c).
  Lemma weighted_map (lv : list (@level F)) : good P lv -> forall i,
    lock (fun cs cs' => cs' = map mcen cs /\ Forall (fun c => P (mean c)) cs) (weighted_from i lv) (weighted_from i (map (mlevel f) lv)).
  Proof.
    intros Hlv. induction Hlv as [|[b c] lv Hb _ IH]; intros i; cbn [map mlevel weighted_from fst snd]; [cbn [lock]; split; [reflexivity|constructor]|].
    eapply lock_bind with (R := fun cs cs' => cs' = map mcen cs /\ Forall (fun c => P (mean c)) cs).
    - cbn [fst] in Hb. clear - Hb. induction Hb as [|x b Hx _ IH]; cbn [map mapM]; [cbn [lock]; split; [reflexivity|constructor]|].
      eapply lock_bind with (R := fun c c' => c' = mcen c /\ P (mean c)).
      + eapply lock_bind; [apply (@lock_refl _ eq); reflexivity|]. intros w ? <-. cbn [lock]. split; [reflexivity|exact Hx].
      + intros c c' [-> Hc]. eapply lock_bind; [exact IH|]. intros cs cs' [-> Hcs]. cbn [lock map]. split; [reflexivity|constructor; assumption].
    - intros cs cs' [-> Hcs]. eapply lock_bind; [exact (IH (i + 1)%Z)|]. intros r r' [-> Hr]. cbn [lock]. split; [now rewrite map_app|apply Forall_app; auto].
  Qed.
  Lemma sort_cen_map l : Forall (fun c => P (mean c)) l -> lock (fun s s' => s' = map mcen s) (sort_by_key (@mean F) l) (sort_by_key (@mean F) (map mcen l)).
  Proof using Hs FL.
    intros Hl. destruct Hs as [Hn Hl2]. destruct l as [|a [|b l]]; cbn [sort_by_key map lock]; [reflexivity|reflexivity|].
    change (mcen a :: mcen b :: map mcen l) with (map mcen (a :: b :: l)). set (l0 := a :: b :: l) in *.
    replace (existsb (fun a => fisnan (mean a)) (map mcen l0)) with (existsb (fun a => fisnan (mean a)) l0).
    2: { clear - Hl Hn. induction Hl as [|x l2 Hx _ IH]; cbn [existsb map]; [reflexivity|]. rewrite IH. cbn [mcen mean]. now rewrite (Hn _ Hx). }
    destruct (existsb (fun a => fisnan (mean a)) l0) eqn:E; [exact I|]. cbn [lock]. symmetry.
    apply (@isort_map _ _ (fun a b => flt (mean a) (mean b)) (fun a b => flt (mean a) (mean b)) mcen (fun c => P (mean c))).
    - intros x y Hx Hy Exy. cbn [mcen mean]. rewrite Hl2; auto.
    - intros x y Hx Hy Exy. cbn [mcen mean]. rewrite Hl2; auto.
    - exact Hl.
    - intros l' (p & Ep).
      assert (Forall (fun x : centroid F => fisnan (mean x) = false) l') as Hnn.
      { apply Forall_forall. intros x Hx. destruct (fisnan (mean x)) eqn:Ex; [|reflexivity]. rewrite <- E. symmetry. apply existsb_exists. exists x. split; [|exact Ex].
        rewrite Ep. apply in_app_iff. auto. }
      pose proof (@isort_sorted F FO FL (centroid F) (@mean F) l' Hnn) as HS. clear - HS FL. induction HS as [|x l2 HS IH HF]; constructor; [exact IH|].
      eapply Forall_impl; [|exact HF]. unfold kle. intros y Hy. destruct (flt (mean y) (mean x)) eqn:E; [|reflexivity].
      pose proof (fle_flt_trans _ _ _ Hy E) as H. now rewrite flt_irrefl in H.
  Qed.
  Lemma first_above_map cs : forall total target, first_above (map mcen cs) total target = option_map f (first_above cs total target).
  Proof. induction cs as [|c cs IH]; intros total target; cbn [map first_above mcen mean weight option_map]; [reflexivity|]. destruct (fgt _ _); [reflexivity|apply IH]. Qed.
  Lemma est_value_map s s' q : rrel P f s s' -> lock (fun x y => y = f x) (rc_est_value s q) (rc_est_value s' q).
  Proof using Hs FL.
    intros [-> H]. unfold rc_est_value, sorted_weighted_values.
    eapply lock_bind with (R := fun cs cs' => cs' = map mcen cs).
    - eapply lock_bind; [exact (weighted_map H 0%Z)|]. intros cs cs' [-> Hcs]. now apply sort_cen_map.
    - intros cs ? ->. change (rc_count (mrc f s)) with (rc_count s). rewrite first_above_map. destruct (first_above cs f0 _); cbn [option_map]; [reflexivity|].
      rewrite <- map_rev. destruct (rev cs) as [|c l]; cbn [map lock]; [exact I|reflexivity].
  Qed.
  Theorem value_map lg n k ops q : Forall (op_ok P) ops -> lock (fun x y => y = f x) (value_after lg n k ops q) (value_after lg n k (map (mop f) ops) q).
  Proof using Hs FL.
    intros Ho. unfold value_after. eapply lock_bind; [exact (rc_run_map strictly_increasing _ _ _ _ eq_refl Ho)|]. intros s s' H. now apply est_value_map.
  Qed.
  Theorem value2_map extra k ops q : Forall (op_ok P) ops -> lock (fun x y => y = f x) (value_after2 extra k ops q) (value_after2 extra k (map (mop f) ops) q).
  Proof using Hs FL.
    intros Ho. unfold value_after2. eapply lock_bind; [exact (rc2_run_map strictly_increasing _ _ Ho)|]. intros s s' H. unfold rc2_est_value. apply est_value_map. now apply as_rc_map.
  Qed.
  Lemma strictly_le x v : P x -> P v -> fisnan x = false -> fisnan v = false -> fle (f x) (f v) = fle x v.
  Proof using Hs FL.
    intros Hx Hv Nx Nv. destruct Hs as [Hn Hl].
    assert (forall a b, fisnan a = false -> fisnan b = false -> fle a b = negb (flt b a)) as E.
    { intros a b Ha Hb. destruct (flt b a) eqn:E; cbn [negb].
      - destruct (fle a b) eqn:E2; [|reflexivity]. pose proof (fle_flt_trans _ _ _ E2 E) as H. now rewrite flt_irrefl in H.
      - destruct (fle_total _ _ Ha Hb) as [H|H]; congruence. }
    rewrite !E, Hl; auto; rewrite Hn; auto.
  Qed.
End Values.

(* ------------------------------------------------------------------ *)
(** * The rank of v only depends on which items are <= v *)
Section Threshold.
  Context {F F' : Type} {FO : FloatOps F} {FL : FloatLaws F} {GO : FloatOps F'} {GL : FloatLaws F'}.
  (** the item replaced by -inf or +inf *)
  Definition side (b : bool) : F' := if b then fninf else fpinf.
  Lemma side_nn b : fisnan (side b) = false.
  Proof using GL. unfold side, fisnan. rewrite fcmp_val. destruct b; rewrite ?fninf_val, ?fpinf_val; reflexivity. Qed.
  Lemma side_lt b b' : flt (side b) (side b') = (b && negb b')%bool.
  Proof using GL. unfold side, flt. rewrite fcmp_val. destruct b, b'; rewrite ?fninf_val, ?fpinf_val; reflexivity. Qed.
  Lemma side_le b : fle (side b) fninf = b.
  Proof using GL. unfold side, fle. rewrite fcmp_val. destruct b; rewrite ?fninf_val, ?fpinf_val; reflexivity. Qed.
  Lemma side_increasing (v : F) : fisnan v = false -> increasing (fun x => fisnan x = false) (fun x : F => side (fle x v)).
  Proof using FL GL.
    intros Hv. split; intros x; [intros Hx; now rewrite side_nn| |]; intros y Hx Hy E; rewrite side_lt.
    - destruct (fle x v) eqn:Ex, (fle y v) eqn:Ey; cbn [andb negb]; auto. exfalso.
      pose proof (@fle_trans _ _ _ _ _ _ (flt_fle _ _ E) Ey). congruence.
    - destruct (fle x v) eqn:Ex, (fle y v) eqn:Ey; cbn [andb negb]; auto. exfalso.
      assert (fle y x = true) as H by (destruct (fle_total _ _ Hy Hx) as [H|H]; [exact H|congruence]).
      pose proof (@fle_trans _ _ _ _ _ _ H Ex). congruence.
  Qed.
End Threshold.

(** two insertions of the same kind, of items on the same sides of v and of w *)
Definition same_side {F F'} {FO : FloatOps F} {GO : FloatOps F'} (v : F) (w : F') (o : rop F) (o' : rop F') : Prop :=
  match o, o' with
  | RAdd x, RAdd y => fle x v = fle y w
  | RBuf l, RBuf l' => Forall2 (fun x y => fle x v = fle y w) l l'
  | RCustom l fast Default, RCustom l' fast' Default => fast = fast' /\ Forall2 (fun x y => fle x v = fle y w) l l'
  | _, _ => False
  end.

Section Pattern.
  Context {F F' : Type} {FO : FloatOps F} {FL : FloatLaws F} {GO : FloatOps F'} {GL : FloatLaws F'}.
  Variables (v : F) (w : F').
  Hypotheses (Hv : fisnan v = false) (Hw : fisnan w = false).
  Let f (x : F) : F' := side (fle x v).
  Let g (x : F') : F' := side (fle x w).
  Lemma same_side_mop o o' : same_side v w o o' -> mop f o = mop g o'.
  Proof.
    assert (forall l l', Forall2 (fun x y => fle x v = fle y w) l l' -> map f l = map g l') as E.
    { induction 1 as [|x y l l' H _ IH]; cbn [map]; [reflexivity|]. rewrite IH. unfold f, g. now rewrite H. }
    destruct o as [x|l|l fast []], o' as [y|l'|l' fast' []]; cbn [same_side mop]; try contradiction.
    - intros H. unfold f, g. now rewrite H.
    - intros H. now rewrite (E _ _ H).
    - intros [-> H]. now rewrite (E _ _ H).
  Qed.
  Lemma same_side_ok o o' : same_side v w o o' -> no_nan (ritems o) -> no_nan (ritems o') -> op_ok (fun x => fisnan x = false) o /\ op_ok (fun x => fisnan x = false) o'.
  Proof.
    destruct o as [x|l|l fast []], o' as [y|l'|l' fast' []]; cbn [same_side op_ok ritems]; try contradiction; unfold no_nan; intros H H1 H2; auto.
    inversion H1; inversion H2; subst. auto.
  Qed.
  Lemma same_sides ops ops' : Forall2 (same_side v w) ops ops' -> no_nan (ritems_of ops) -> no_nan (ritems_of ops') ->
    map (mop f) ops = map (mop g) ops' /\ Forall (op_ok (fun x => fisnan x = false)) ops /\ Forall (op_ok (fun x => fisnan x = false)) ops'.
  Proof.
    induction 1 as [|o o' ops ops' H _ IH]; intros H1 H2; [repeat split; constructor|].
    assert (forall {X} (FX : FloatOps X) (o : rop X) ops, no_nan (ritems_of (o :: ops)) -> no_nan (ritems o) /\ no_nan (ritems_of ops)) as E.
    { intros X FX oo oops Hn. unfold no_nan in *. apply Forall_app. destruct oo; exact Hn. }
    destruct (E _ _ _ _ H1) as [A1 B1], (E _ _ _ _ H2) as [A2 B2]. destruct (IH B1 B2) as (E1 & E2 & E3). destruct (same_side_ok _ _ H A1 A2).
    cbn [map]. rewrite E1, (same_side_mop _ _ H). auto.
  Qed.
  Lemma lock_join {A} (m n p : M A) : lock eq m p -> lock eq n p -> lock eq m n.
  Proof.
    revert n p. induction m as [a| | |k IH]; intros [b| | |k'] [c| | |k'']; cbn [lock]; intros H1 H2; try contradiction; auto; [congruence|].
    intros c. exact (IH c _ _ (H1 c) (H2 c)).
  Qed.
  Theorem rank_pattern (lg : F -> F) (lg' : F' -> F') n k ops ops' : calc_buffer_size lg n k = calc_buffer_size lg' n k ->
    Forall2 (same_side v w) ops ops' -> no_nan (ritems_of ops) -> no_nan (ritems_of ops') ->
    lock eq (rank_after lg n k ops v) (rank_after lg' n k ops' w).
  Proof using FL GL Hv Hw.
    intros Hc H H1 H2. destruct (same_sides H H1 H2) as (E & Ho & Ho').
    apply lock_join with (p := rank_after lg' n k (map (mop f) ops) fninf).
    - apply (@rank_map F F' FO FL GO _ f (side_increasing v Hv)); [exact Hc|exact Ho|]. intros x _. apply side_le.
    - rewrite E. apply (@rank_map F' F' GO GL GO _ g (side_increasing w Hw)); [reflexivity|exact Ho'|]. intros x _. apply side_le.
  Qed.
  Theorem rank2_pattern extra k ops ops' :
    Forall2 (same_side v w) ops ops' -> no_nan (ritems_of ops) -> no_nan (ritems_of ops') ->
    lock eq (rank_after2 extra k ops v) (rank_after2 extra k ops' w).
  Proof using FL GL Hv Hw.
    intros H H1 H2. destruct (same_sides H H1 H2) as (E & Ho & Ho').
    apply lock_join with (p := rank_after2 extra k (map (mop f) ops) (fninf : F')).
    - apply (@rank2_map F F' FO FL GO _ f (side_increasing v Hv)); [exact Ho|]. intros x _. apply side_le.
    - rewrite E. apply (@rank2_map F' F' GO GL GO _ g (side_increasing w Hw)); [exact Ho'|]. intros x _. apply side_le.
  Qed.
End Pattern.

(* ------------------------------------------------------------------ *)
(** * With the same coins *)
Definition map_result {A B} (f : A -> B) (r : result A) : result B :=
  match r with Returned a => Returned (f a) | Panicked => Panicked | Diverged => Diverged | NeedsCoins => NeedsCoins end.
Lemma lock_run_fun {A B} (f : A -> B) m n coins : lock (fun a b => b = f a) m n -> run n coins = map_result f (run m coins).
Proof.
  revert n coins. induction m as [a| | |k IH]; intros [b| | |k'] coins; cbn [lock run map_result]; intros H; try contradiction; auto; [now subst|].
  destruct coins as [|c coins]; [reflexivity|]. apply IH, H.
Qed.
Lemma lock_run_eq {A} (m n : M A) coins : lock eq m n -> run m coins = run n coins.
Proof.
  revert n coins. induction m as [a| | |k IH]; intros [b| | |k'] coins; cbn [lock run]; intros H; try contradiction; auto; [now subst|].
  destruct coins as [|c coins]; [reflexivity|]. apply IH, H.
Qed.

Section Images.
  Context {F : Type} {FO : FloatOps F} {FL : FloatLaws F} (P : F -> Prop) (f : F -> F).
  Lemma ops_ok (ops : list (rop F)) : Forall P (ritems_of ops) -> Forall (fun o => rmeth o = Default) ops -> Forall (op_ok P) ops.
  Proof.
    intros H Hm. induction Hm as [|o ops Ho _ IH]; [constructor|]. apply Forall_app in H. destruct H as [H1 H2]. constructor; [|auto].
    destruct o; cbn [ritems rmeth op_ok] in *; [now inversion H1|exact H1|auto].
  Qed.
  Theorem value_image lg n k (ops : list (rop F)) q coins :
    (forall x, P x -> fisnan (f x) = fisnan x) -> (forall x y, P x -> P y -> flt (f x) (f y) = flt x y) ->
    Forall P (ritems_of ops) -> Forall (fun o => rmeth o = Default) ops ->
    run (value_after lg n k (map (mop f) ops) q) coins = map_result f (run (value_after lg n k ops q) coins).
  Proof using FL. intros H1 H2 H3 H4. apply lock_run_fun. apply (@value_map F FO FL P f (conj H1 H2)). now apply ops_ok. Qed.
  Theorem value2_image extra k (ops : list (rop F)) q coins :
    (forall x, P x -> fisnan (f x) = fisnan x) -> (forall x y, P x -> P y -> flt (f x) (f y) = flt x y) ->
    Forall P (ritems_of ops) -> Forall (fun o => rmeth o = Default) ops ->
    run (value_after2 extra k (map (mop f) ops) q) coins = map_result f (run (value_after2 extra k ops q) coins).
  Proof using FL. intros H1 H2 H3 H4. apply lock_run_fun. apply (@value2_map F FO FL P f (conj H1 H2)). now apply ops_ok. Qed.
End Images.

Theorem rank_same F F' (FO : FloatOps F) (FL : FloatLaws F) (GO : FloatOps F') (GL : FloatLaws F') v w lg lg' n k
    (ops : list (rop F)) (ops' : list (rop F')) coins :
  fisnan v = false -> fisnan w = false -> calc_buffer_size lg n k = calc_buffer_size lg' n k ->
  Forall2 (same_side v w) ops ops' -> no_nan (ritems_of ops) -> no_nan (ritems_of ops') ->
  run (rank_after lg n k ops v) coins = run (rank_after lg' n k ops' w) coins.
Proof. intros. apply lock_run_eq. now apply @rank_pattern. Qed.
Theorem rank2_same F F' (FO : FloatOps F) (FL : FloatLaws F) (GO : FloatOps F') (GL : FloatLaws F') v w extra k
    (ops : list (rop F)) (ops' : list (rop F')) coins :
  fisnan v = false -> fisnan w = false ->
  Forall2 (same_side v w) ops ops' -> no_nan (ritems_of ops) -> no_nan (ritems_of ops') ->
  run (rank_after2 extra k ops v) coins = run (rank_after2 extra k ops' w) coins.
Proof. intros. apply lock_run_eq. now apply @rank2_pattern. Qed.
Theorem rank_distribution F F' (FO : FloatOps F) (FL : FloatLaws F) (GO : FloatOps F') (GL : FloatLaws F') v w lg lg' n k extra k2
    (ops : list (rop F)) (ops' : list (rop F')) (u : Z -> Rdefinitions.R) :
  fisnan v = false -> fisnan w = false ->
  Forall2 (same_side v w) ops ops' -> no_nan (ritems_of ops) -> no_nan (ritems_of ops') ->
  (calc_buffer_size lg n k = calc_buffer_size lg' n k -> expect u (rank_after lg n k ops v) = expect u (rank_after lg' n k ops' w)) /\
  expect u (rank_after2 extra k2 ops v) = expect u (rank_after2 extra k2 ops' w).
Proof.
  intros Hv Hw H H1 H2. split; [intros Hc|].
  - apply (@lock_expect _ _ eq); [now apply @rank_pattern|]. now intros a b ->.
  - apply (@lock_expect _ _ eq); [now apply @rank2_pattern|]. now intros a b ->.
Qed.
