(** RCSketch2: insertions and sequences of calls. *)
From Coq Require Import List Arith ZArith NArith Lia Bool Permutation Sorted Reals Lra Psatz.
From Verif Require Import Base Floats IEEE Digest Spec FloatFacts History TDigest RCSketch RCProofs RCHist RCRank RCExpect RC2 RC2Sections RC2Proofs.
Set Implicit Arguments.
Local Open Scope nat_scope.

Section RC2H.
  Context {F : Type} {FO : FloatOps F} {FL : FloatLaws F}.
  Notation level2 := (@level2 F).

  Lemma extend_bottom_ret (lv : list level2) items : lv <> [] -> exists b c s up, lv = ((b, c), s) :: up /\
    extend_bottom lv items = Ret (((b ++ items, c), s) :: up).
  Proof. destruct lv as [|[[b c] s] up]; [contradiction|]. intros _. exists b, c, s, up. auto. Qed.

  (** ** whatever the coins, whenever a call returns *)
  Section Whenever.
    Variables (k : N) (mode : bool -> method -> Prop) (I : list level2 -> list F -> Prop).
    Hypothesis Iext : forall b c s up its items, I (((b, c), s) :: up) its -> I (((b ++ items, c), s) :: up) (its ++ items).
    Hypothesis Ipress : forall fast m lv lv' its, mode fast m -> Press k fast m (length lv) lv lv' -> I lv its -> I lv' its.

    Let J (its : list F) (r : nat * list level2) : Prop := I (snd r) its /\ fst r = held2 (snd r).

    Lemma full_whenever fast m size lv its : mode fast m -> J its (size, lv) ->
      whenever (J its) (compress_if_full k fast m size lv).
    Proof.
      intros Hm [HI Hsz]. cbn [fst snd] in *. unfold compress_if_full.
      eapply whenever_bind; [apply whenever_true|]. intros cp _.
      destruct (size <? cp); [split; auto|].
      eapply whenever_mono; [apply compress_whenever|]. intros [size' lv'] [HP HE]. cbn [fst snd] in *.
      split; cbn [fst snd]; [eapply Ipress; eauto|lia].
    Qed.

    Lemma J_ext b c s up size its items : J its (size, ((b, c), s) :: up) ->
      J (its ++ items) (size + length items, ((b ++ items, c), s) :: up).
    Proof.
      intros [H1 H2]. cbn [fst snd] in *. split; cbn [fst snd]; [apply Iext; exact H1|].
      rewrite held2_cons in *. rewrite app_length. lia.
    Qed.

    Lemma insert2_whenever fast m size lv x its : mode fast m -> J its (size, lv) ->
      whenever (J (its ++ [x])) (insert2 k fast m size lv x).
    Proof.
      intros Hm HJ. unfold insert2. destruct lv as [|[[b c] s] up]; [exact Logic.I|]. cbn [extend_bottom bind].
      apply full_whenever; auto. exact (J_ext [x] HJ).
    Qed.

    Lemma batch_whenever fast m fuel : forall size lv items its, mode fast m -> J its (size, lv) ->
      whenever (J (its ++ items)) (insert_batch k fast m fuel size lv items).
    Proof.
      induction fuel as [|fuel IH]; intros size lv items its Hm HJ.
      - destruct items; cbn [insert_batch whenever]; [rewrite app_nil_r; exact HJ|exact Logic.I].
      - destruct items as [|x items]; cbn [insert_batch]; [cbn [whenever]; rewrite app_nil_r; exact HJ|].
        set (its' := x :: items). eapply whenever_bind; [apply whenever_true|]. intros cp _.
        destruct (cp <? size); [exact Logic.I|]. set (room := Nat.min (cp - size) (length its')).
        destruct lv as [|[[b c] s] up]; [exact Logic.I|]. cbn [extend_bottom bind].
        eapply whenever_bind.
        + apply full_whenever; [exact Hm|].
          assert (room = length (firstn room its')) as Er by (rewrite firstn_length; unfold room; lia).
          rewrite Er at 1. apply J_ext. exact HJ.
        + intros [size' lv''] HJ'.
          assert (its ++ its' = (its ++ firstn room its') ++ skipn room its') as E by (rewrite <- app_assoc, firstn_skipn; reflexivity).
          rewrite E. apply IH; auto.
    Qed.

    Variable extra : nat.
    Definition good (s : rc2 F) (its : list F) : Prop :=
      r2_k s = k /\ I (r2_levels s) its /\ r2_size s = held2 (r2_levels s).

    Lemma rstep2_whenever s o its : mode (rfast o) (rmeth o) -> good s its ->
      whenever (fun s' => good s' (its ++ ritems o) /\ r2_count s' = (r2_count s + Z.of_nat (length (ritems o)))%Z) (rstep2 extra s o).
    Proof.
      intros Hm (Hk & HI & Hs).
      destruct o as [x|l|l fast m]; cbn [rstep2 rfast rmeth ritems] in *;
        unfold rc2_add, rc2_add_buffer, rc2_add_buffer_custom; rewrite Hk.
      - eapply whenever_bind; [eapply insert2_whenever; [exact Hm|split; [exact HI|exact Hs]]|].
        intros [size lv] [H1 H2]. cbn [whenever fst snd] in *. unfold good. cbn [r2_k r2_levels r2_size r2_count]. auto.
      - eapply whenever_bind; [eapply batch_whenever; [exact Hm|split; [exact HI|exact Hs]]|].
        intros [size lv] [H1 H2]. cbn [whenever fst snd] in *. unfold good. cbn [r2_k r2_levels r2_size r2_count]. auto.
      - eapply whenever_bind; [eapply batch_whenever; [exact Hm|split; [exact HI|exact Hs]]|].
        intros [size lv] [H1 H2]. cbn [whenever fst snd] in *. unfold good. cbn [r2_k r2_levels r2_size r2_count]. auto.
    Qed.

    Lemma rexec2_whenever : forall ops s its, Forall (fun o => mode (rfast o) (rmeth o)) ops -> good s its ->
      whenever (fun s' => good s' (its ++ ritems_of ops) /\ r2_count s' = (r2_count s + Z.of_nat (length (ritems_of ops)))%Z)
               (rexec2 extra s ops).
    Proof.
      unfold rexec2. induction ops as [|o ops IH]; intros s its Hm HG; cbn [foldM].
      - cbn [whenever]. rewrite app_nil_r. cbn. split; [exact HG|lia].
      - eapply whenever_bind; [apply rstep2_whenever; [exact (Forall_inv Hm)|exact HG]|].
        intros s1 [HG1 Hc1]. eapply whenever_mono; [apply IH; [exact (Forall_inv_tail Hm)|exact HG1]|].
        intros s2 [HG2 Hc2]. unfold ritems_of in *. cbn [map concat]. rewrite app_assoc. split; [exact HG2|].
        rewrite Hc2, Hc1, app_length. lia.
    Qed.
  End Whenever.

  (** ** 4 <= k <= 2^24: no call fails *)
  Section Ok.
    Variable k : N.
    Hypothesis Hk : k_ok k.
    Variable o : nat.
    Hypothesis Ho : Nat.odd o = true /\ o <= min_sec k + 1.
    Variable P : F -> Prop.

    (** the state of a sketch that received N items *)
    Definition ok_state (r : nat * list level2) (N : nat) : Prop :=
      wf k (snd r) /\ snd r <> [] /\ all_in P (plain (snd r)) /\ fits2 k o (snd r) N /\
      fst r = held2 (snd r) /\ fst r < totcap (snd r).

    (** the counters cannot overflow *)
    Definition in_range2 (fast : bool) (N : nat) : Prop := fast = true \/ (N.of_nat N <= N.of_nat (min_sec k) * u32_max)%N.

    Lemma full_always fast m size lv N : keeps m P -> in_range2 fast N ->
      wf k lv -> lv <> [] -> all_in P (plain lv) -> fits2 k o lv N -> size = held2 lv -> size <= totcap lv ->
      always (fun r => ok_state r N) (compress_if_full k fast m size lv).
    Proof.
      intros HP Hr Hwf Hne Ha HN Hsz Hle. unfold compress_if_full. rewrite total_capacity_val with (k := k) by auto. cbn [bind].
      destruct (Nat.ltb_spec size (totcap lv)) as [Hl|Hl]; [cbn [always]; repeat split; auto|].
      eapply always_mono.
      - eapply always_whenever_and; [|apply compress_whenever].
        eapply compress_always with (o := o) (P := P) (N := N); eauto; [|lia].
        intros ->. destruct Hr as [Hr|Hr]; [discriminate|exact Hr].
      - intros [size' lv'] [_ [HPr HE]]. cbn [fst snd] in *. unfold ok_state. cbn [fst snd].
        pose proof (Press_sizes Hk HPr Hwf) as (S1 & S2 & S3 & _). pose proof (Press_room Hk HPr Hwf eq_refl Hne ltac:(lia)) as S4.
        repeat split.
        + eapply Press_wf; eauto.
        + destruct lv'; [destruct lv; [contradiction|cbn in S3; lia]|discriminate].
        + eapply Press_all_in; eauto. apply HP.
        + eapply Press_fits; eauto.
        + lia.
        + lia.
    Qed.

    Lemma fits2_app b c s up N (items : list F) : fits2 k o (((b, c), s) :: up) N ->
      fits2 k o (((b ++ items, c), s) :: up) (N + length items).
    Proof.
      cbn [fits2]. intros (r & n' & H1 & H2 & H3 & H4 & H5). exists r, n'. rewrite app_length.
      split; [lia|]. split; [exact H2|]. split; [exact H3|]. split; [|exact H5]. intros H. specialize (H4 H). lia.
    Qed.

    Lemma push_always fast m size lv N items : keeps m P -> in_range2 fast (N + length items) -> ok_state (size, lv) N ->
      Forall P items -> size + length items <= totcap lv ->
      always (fun r => ok_state r (N + length items))
             (do lv' <- extend_bottom lv items; compress_if_full k fast m (size + length items) lv').
    Proof.
      intros HP Hr (Hwf & Hne & Ha & HN & Hsz & Hlt) Hit Hle. cbn [fst snd] in *.
      destruct lv as [|[[b c] s] up]; [contradiction|]. cbn [extend_bottom bind].
      apply full_always; auto.
      - constructor; [exact (Forall_inv Hwf)|exact (Forall_inv_tail Hwf)].
      - discriminate.
      - constructor; [|exact (Forall_inv_tail Ha)]. cbn [fst]. apply Forall_app. split; [exact (Forall_inv Ha)|exact Hit].
      - now apply fits2_app.
      - rewrite held2_cons in *. rewrite app_length. lia.
    Qed.

    Lemma insert2_always fast m size lv N x : keeps m P -> in_range2 fast (N + 1) -> ok_state (size, lv) N -> P x ->
      always (fun r => ok_state r (N + 1)) (insert2 k fast m size lv x).
    Proof.
      intros HP Hr HS Hx. unfold insert2. apply (@push_always fast m size lv N [x]); auto.
      destruct HS as (_ & _ & _ & _ & _ & Hlt). cbn [fst snd] in Hlt. cbn [length]. lia.
    Qed.

    Lemma batch_always fast m fuel : forall size lv N items, keeps m P -> in_range2 fast (N + length items) ->
      ok_state (size, lv) N -> Forall P items -> length items <= fuel ->
      always (fun r => ok_state r (N + length items)) (insert_batch k fast m fuel size lv items).
    Proof.
      induction fuel as [|fuel IH]; intros size lv N items HP Hr HS Hit Hf.
      - destruct items; [|cbn in Hf; lia]. cbn [insert_batch always length]. now rewrite Nat.add_0_r.
      - destruct items as [|x items]; cbn [insert_batch]; [cbn [always length]; now rewrite Nat.add_0_r|].
        set (its := x :: items) in *. pose proof HS as (Hwf & Hne & Ha & HN & Hsz & Hlt). cbn [fst snd] in *.
        rewrite total_capacity_val with (k := k) by auto. cbn [bind].
        destruct (Nat.ltb_spec (totcap lv) size) as [H|_]; [lia|].
        set (room := Nat.min (totcap lv - size) (length its)).
        assert (1 <= length its) as Hlen by (unfold its; cbn; lia).
        assert (length (firstn room its) = room) as Er by (rewrite firstn_length; unfold room; lia).
        assert (length (skipn room its) = length its - room) as Es by apply skipn_length.
        assert (1 <= room <= length its) as Hroom by (unfold room; lia).
        assert (Forall P (firstn room its) /\ Forall P (skipn room its)) as [Hp1 Hp2].
        { apply Forall_app. rewrite firstn_skipn. exact Hit. }
        pose proof (@push_always fast m size lv N (firstn room its) HP) as HA.
        rewrite Er in HA. rewrite <- bind_assoc. eapply always_bind.
        + apply HA; auto; [|unfold room; lia]. destruct Hr as [Hr|Hr]; [left; exact Hr|right; lia].
        + intros [size' lv''] HS'. replace (N + length its) with (N + room + length (skipn room its)) by lia.
          apply IH; auto.
          * replace (N + room + length (skipn room its)) with (N + length its) by lia. exact Hr.
          * lia.
    Qed.

    Variable extra : nat.
    Lemma rstep2_always s q N : keeps (rmeth q) P -> in_range2 (rfast q) (N + length (ritems q)) -> r2_k s = k ->
      ok_state (r2_size s, r2_levels s) N -> Forall P (ritems q) ->
      always (fun s' => r2_k s' = k /\ ok_state (r2_size s', r2_levels s') (N + length (ritems q)) /\
                        r2_count s' = (r2_count s + Z.of_nat (length (ritems q)))%Z) (rstep2 extra s q).
    Proof.
      intros HP Hr Ek HS Hit.
      destruct q as [x|l|l fast m]; cbn [rstep2 rfast rmeth ritems] in *;
        unfold rc2_add, rc2_add_buffer, rc2_add_buffer_custom; rewrite Ek.
      - eapply always_bind; [eapply insert2_always; eauto; exact (Forall_inv Hit)|].
        intros [size lv] H. cbn [always r2_k r2_levels r2_size r2_count length] in *. auto.
      - eapply always_bind; [eapply batch_always; eauto; lia|].
        intros [size lv] H. cbn [always r2_k r2_levels r2_size r2_count] in *. auto.
      - eapply always_bind; [eapply batch_always; eauto; lia|].
        intros [size lv] H. cbn [always r2_k r2_levels r2_size r2_count] in *. auto.
    Qed.

    Lemma rexec2_always : forall ops s N, Forall (fun q => keeps (rmeth q) P) ops ->
      (Forall (fun q => rfast q = true) ops \/ (N.of_nat (N + length (ritems_of ops)) <= N.of_nat (min_sec k) * u32_max)%N) ->
      r2_k s = k -> ok_state (r2_size s, r2_levels s) N -> Forall P (ritems_of ops) ->
      always (fun s' => r2_k s' = k /\ ok_state (r2_size s', r2_levels s') (N + length (ritems_of ops)) /\
                        r2_count s' = (r2_count s + Z.of_nat (length (ritems_of ops)))%Z) (rexec2 extra s ops).
    Proof.
      unfold rexec2. induction ops as [|q ops IH]; intros s N HP Hr Ek HS Hit; cbn [foldM].
      - cbn [always ritems_of map concat length]. rewrite Nat.add_0_r, Z.add_0_r. auto.
      - unfold ritems_of in *. cbn [map concat] in *. rewrite app_length in *. apply Forall_app in Hit as [Hi1 Hi2].
        eapply always_bind.
        + eapply rstep2_always; eauto; [exact (Forall_inv HP)|].
          destruct Hr as [Hr|Hr]; [left; exact (Forall_inv Hr)|right; lia].
        + intros s1 (Ek1 & HS1 & Hc1). eapply always_mono; [apply IH with (N := N + length (ritems q)); eauto|].
          * exact (Forall_inv_tail HP).
          * destruct Hr as [Hr|Hr]; [left; exact (Forall_inv_tail Hr)|right; lia].
          * intros s2 (Ek2 & HS2 & Hc2). rewrite Nat.add_assoc. split; [exact Ek2|]. split; [exact HS2|]. rewrite Hc2, Hc1. lia.
    Qed.

    Lemma new_ok : ok_state (r2_size (rc2_new (F := F) k), r2_levels (rc2_new k)) 0.
    Proof.
      unfold rc2_new, ok_state. cbn [r2_size r2_levels fst snd]. split; [repeat constructor; apply wf_new; exact Hk|].
      split; [discriminate|]. split; [repeat constructor|]. split; [|split; [reflexivity|]].
      - cbn [new_level fits2]. exists 0, 0. cbn. repeat split; try lia; try contradiction.
      - assert (wf_level k (new_level k ([] : list F))) as Hw by (apply wf_new; exact Hk).
        unfold new_level in *. destruct (capn_wf Hk Hw) as (j & _ & _ & _ & _ & E & H). cbn [totcap snd].
        rewrite E. destruct Hk. lia.
    Qed.
  End Ok.
End RC2H.
