(** Proofs about MultiDigest and SymDigest. *)
From Coq Require Import List Arith ZArith Lia Bool Permutation Sorted Reals Lra.
From Flocq Require Import Core.
From Verif Require Import Base Floats XReal Digest Spec FloatFacts History LinearProofs WrapProofs.
Set Implicit Arguments.
Unset Universe Minimization ToSet.

Section MapM.
  Context {A B : Type}.
  Lemma mapM_whenever (f : A -> M B) l :
    whenever (fun rs => Forall2 (fun a b => returns (f a) b) l rs) (mapM f l).
  Proof.
    induction l as [|a l IH]; cbn; [constructor|].
    eapply whenever_bind; [apply whenever_returns; intros b Hb; exact Hb|]. intros b Hb.
    eapply whenever_bind; [exact IH|]. intros bs Hbs. cbn. now constructor.
  Qed.
  Lemma mapM_always (P : A -> B -> Prop) (f : A -> M B) l :
    Forall (fun a => always (P a) (f a)) l -> always (fun rs => Forall2 P l rs) (mapM f l).
  Proof.
    induction 1 as [|a l Ha Hl IH]; cbn; [constructor|].
    eapply always_bind; [exact Ha|]. intros b Hb.
    eapply always_bind; [exact IH|]. intros bs Hbs. cbn. now constructor.
  Qed.
  Lemma mapM_whenever_P (P : A -> B -> Prop) (f : A -> M B) l :
    Forall (fun a => whenever (P a) (f a)) l -> whenever (fun rs => Forall2 P l rs) (mapM f l).
  Proof.
    induction 1 as [|a l Ha Hl IH]; cbn; [constructor|].
    eapply whenever_bind; [exact Ha|]. intros b Hb.
    eapply whenever_bind; [exact IH|]. intros bs Hbs. cbn. now constructor.
  Qed.
End MapM.

Lemma Forall2_map_r {A B C} (P : A -> B -> Prop) (f : C -> B) l l' :
  Forall2 P l (map f l') <-> Forall2 (fun a c => P a (f c)) l l'.
Proof.
  revert l'; induction l as [|a l IH]; intros [|c l']; cbn; split; intros H; inversion H; subst; constructor; auto;
    now apply IH.
Qed.
Lemma Forall2_map_l {A B C} (P : A -> B -> Prop) (f : C -> A) l l' :
  Forall2 P (map f l) l' <-> Forall2 (fun c b => P (f c) b) l l'.
Proof.
  revert l'; induction l as [|a l IH]; intros [|c l']; cbn; split; intros H; inversion H; subst; constructor; auto;
    now apply IH.
Qed.
Lemma Forall2_impl {A B} (P Q : A -> B -> Prop) l l' :
  (forall a b, P a b -> Q a b) -> Forall2 P l l' -> Forall2 Q l l'.
Proof. intros H; induction 1; constructor; auto. Qed.
Lemma Forall2_len {A B} (P : A -> B -> Prop) l l' : Forall2 P l l' -> length l = length l'.
Proof. induction 1; cbn; auto. Qed.

Section Multi.
  Context {F : Type} {FO : FloatOps F}.
  Notation MD := (multi_digest F).

  (** one member taking one step *)
  Definition bstep (o : op F) (b : boxed F) (out : boxed F * list F) : Prop :=
    exists s', fst out = Box (bx_impl b) s' /\ returns (step (bx_impl b) (bx_state b) o) (s', snd out).

  Lemma multi_step o (ds : list (boxed F)) :
    whenever (fun r => exists outs, Forall2 (bstep o) ds outs /\ fst r = map fst outs /\
        (is_query o = false /\ snd r = [] /\ Forall (fun out => snd out = []) outs \/
         is_query o = true /\ (exists xs, map snd outs = map (fun x => [x]) xs /\ snd r = [meanF xs])))
      (step MD ds o).
  Proof.
    assert (forall (f : forall D : digest F, dst D -> F -> M (dst D * F)) x,
       (forall D s, step D s o = bind (f D s x) (fun r => Ret (fst r, [snd r]))) -> is_query o = true ->
       whenever (fun r => exists outs, Forall2 (bstep o) ds outs /\ fst r = map fst outs /\
         (is_query o = false /\ snd r = [] /\ Forall (fun out => snd out = []) outs \/
         is_query o = true /\ (exists xs, map snd outs = map (fun x => [x]) xs /\ snd r = [meanF xs])))
        (bind (multi_query f ds x) (fun r => Ret (fst r, [snd r])))) as Hq.
    { intros f x Hf Hoq. unfold multi_query. rewrite bind_assoc.
      eapply whenever_bind; [apply mapM_whenever|]. intros rs Hrs. cbn.
      exists (map (fun p => (fst p, [snd p])) rs). split; [|split].
      - apply Forall2_map_r. eapply Forall2_impl; [|exact Hrs].
        intros b [b' a] Hr. cbn in *. apply returns_bind_inv in Hr as ([s' a'] & Hr & E). cbn in E.
        injection E as <- <-. exists s'. split; [reflexivity|]. rewrite Hf. cbn.
        eapply returns_bind; [exact Hr|reflexivity].
      - rewrite map_map. apply map_ext. reflexivity.
      - right. split; auto. exists (map snd rs). rewrite !map_map. split; [reflexivity|].
        unfold meanF. rewrite map_length. apply Forall2_len in Hrs. now rewrite Hrs. }
    destruct o as [x|l|v|q].
    - cbn. unfold multi_add. eapply whenever_bind; [apply mapM_whenever|]. intros rs Hrs. cbn.
      exists (map (fun b => (b, [])) rs). split; [|split].
      + apply Forall2_map_r. eapply Forall2_impl; [|exact Hrs]. intros b b' Hr. cbn in *.
        apply returns_bind_inv in Hr as (s' & Hr & E). cbn in E. subst b'. exists s'. split; [reflexivity|].
        cbn. eapply returns_bind; [exact Hr|reflexivity].
      + rewrite map_map. cbn. now rewrite map_id.
      + left. repeat split; auto. apply Forall_forall. intros out Ho. apply in_map_iff in Ho as (? & <- & _). reflexivity.
    - cbn. unfold multi_add_buffer. eapply whenever_bind; [apply mapM_whenever|]. intros rs Hrs. cbn.
      exists (map (fun b => (b, [])) rs). split; [|split].
      + apply Forall2_map_r. eapply Forall2_impl; [|exact Hrs]. intros b b' Hr. cbn in *.
        apply returns_bind_inv in Hr as (s' & Hr & E). cbn in E. subst b'. exists s'. split; [reflexivity|].
        cbn. eapply returns_bind; [exact Hr|reflexivity].
      + rewrite map_map. cbn. now rewrite map_id.
      + left. repeat split; auto. apply Forall_forall. intros out Ho. apply in_map_iff in Ho as (? & <- & _). reflexivity.
    - specialize (Hq (fun D => d_est_q D) v).
      rewrite <- (bind_ext (multi_query (fun D => d_est_q D) ds v)
                    (fun r => Ret (fst r, [snd r]))) in Hq by (intros; reflexivity).
      cbn [step d_est_q multi_digest]. eapply whenever_mono.
      + erewrite bind_ext; [apply Hq|].
        * intros D s. cbn. apply bind_ext. intros []; reflexivity.
        * reflexivity.
        * intros []; reflexivity.
      + auto.
    - specialize (Hq (fun D => d_est_v D) q).
      cbn [step d_est_v multi_digest]. eapply whenever_mono.
      + erewrite bind_ext; [apply Hq|].
        * intros D s. cbn. apply bind_ext. intros []; reflexivity.
        * reflexivity.
        * intros []; reflexivity.
      + auto.
  Qed.

  Definition column (outs : list (boxed F * list F)) (i : nat) : list F := map (fun o => nth i (snd o) f0) outs.

  Theorem multi_forwards ops : forall ds : list (boxed F),
    whenever (fun r => exists outs, Forall2 (fun b out => alone ops b (fst out) (snd out)) ds outs
                /\ fst r = map fst outs
                /\ Forall (fun out => length (snd out) = n_queries ops) outs
                /\ snd r = map (fun i => meanF (map (fun out => nth i (snd out) f0) outs)) (seq 0 (n_queries ops)))
      (exec MD ds ops).
  Proof.
    induction ops as [|o ops IH]; intros ds.
    - cbn. exists (map (fun b => (b, [])) ds). split; [|split; [|split]].
      + apply Forall2_map_r. induction ds as [|[D s] ds IHd]; constructor; auto.
        exists s. split; reflexivity.
      + rewrite map_map, map_id. reflexivity.
      + apply Forall_forall. intros out Ho. apply in_map_iff in Ho as (? & <- & _). reflexivity.
      + reflexivity.
    - cbn [exec]. eapply whenever_bind; [apply multi_step|].
      intros [ds1 a1] (outs1 & H1 & E1 & Ha). cbn [fst snd] in *. subst ds1.
      eapply whenever_bind; [apply IH|]. intros [ds2 a2] (outs2 & H2 & E2 & HL & EA). cbn [fst snd whenever] in *. subst ds2 a2.
      apply Forall2_map_l in H2.
      exists (map (fun p => (fst (snd p), snd (fst p) ++ snd (snd p))) (combine outs1 outs2)).
      assert (length outs1 = length outs2) as Hlen by (eapply Forall2_len; exact H2).
      split; [|split; [|split]].
      + clear -H1 H2. revert outs1 outs2 H1 H2; induction ds as [|b ds IHd]; intros outs1 outs2 H1 H2.
        * inversion H1; subst. constructor.
        * inversion H1 as [|? out1 ? outs1' Hb H1']; subst. inversion H2 as [|? out2 ? outs2' Hb2 H2']; subst.
          cbn. constructor; [|now apply IHd].
          destruct Hb as (s1 & Es1 & Hr1). destruct out1 as [b1 l1]; cbn in *. subst b1.
          destruct Hb2 as (s2 & Es2 & Hr2). destruct out2 as [b2 l2]; cbn in *. subst b2.
          exists s2. split; [reflexivity|]. cbn.
          eapply returns_bind; [exact Hr1|]. cbn. eapply returns_bind; [exact Hr2|]. reflexivity.
      + clear -Hlen. revert outs2 Hlen; induction outs1 as [|x l IHl]; intros [|y l'] H; cbn in *; try discriminate; auto.
        f_equal. apply IHl. lia.
      + destruct Ha as [(Hq & -> & Hnil)|(Hq & xs & Hxs & ->)].
        * assert (n_queries (o :: ops) = n_queries ops) as -> by (destruct o; try discriminate; reflexivity).
          clear -HL Hnil Hlen. revert outs2 HL Hlen; induction Hnil as [|x l Hx Hl IHl]; intros [|y l'] HL Hlen; cbn; try discriminate; constructor.
          -- cbn. rewrite Hx. cbn. now inversion HL.
          -- apply IHl; [now inversion HL|]. cbn in Hlen. lia.
        * assert (n_queries (o :: ops) = S (n_queries ops)) as -> by (destruct o; try discriminate; reflexivity).
          clear -HL Hxs Hlen. revert xs outs2 Hxs HL Hlen; induction outs1 as [|x l IHl]; intros xs [|y l'] Hxs HL Hlen; cbn; try discriminate; constructor.
          -- destruct xs; cbn in Hxs; [discriminate|]. injection Hxs as -> _. cbn. inversion HL; subst. congruence.
          -- destruct xs; cbn in Hxs; [discriminate|]. injection Hxs as _ Hxs. eapply IHl; eauto. now inversion HL.
      + destruct Ha as [(Hq & -> & Hnil)|(Hq & xs & Hxs & ->)].
        * assert (n_queries (o :: ops) = n_queries ops) as -> by (destruct o; try discriminate; reflexivity).
          cbn. apply map_ext. intros i. f_equal. rewrite map_map.
          clear -Hnil Hlen. revert outs2 Hlen; induction Hnil as [|x l Hx Hl IHl]; intros [|y l'] Hlen; cbn; try discriminate; auto.
          rewrite Hx. cbn. f_equal. apply IHl. cbn in Hlen. lia.
        * assert (n_queries (o :: ops) = S (n_queries ops)) as -> by (destruct o; try discriminate; reflexivity).
          cbn [seq map app]. f_equal.
          -- f_equal. rewrite map_map. clear -Hxs Hlen. revert xs outs2 Hxs Hlen; induction outs1 as [|x l IHl]; intros xs [|y l'] Hxs Hlen; cbn; try discriminate.
             ++ destruct xs; [reflexivity|discriminate].
             ++ destruct xs; [discriminate|]. cbn in Hxs. injection Hxs as -> Hxs. cbn. f_equal. apply IHl; auto.
          -- rewrite <- seq_shift, map_map. apply map_ext. intros i. f_equal. rewrite map_map.
             clear -Hxs Hlen. revert xs outs2 Hxs Hlen; induction outs1 as [|x l IHl]; intros xs [|y l'] Hxs Hlen; cbn; try discriminate; auto.
             destruct xs; [discriminate|]. cbn in Hxs. injection Hxs as -> Hxs. cbn. f_equal. eapply IHl; eauto.
  Qed.

  (** the wrapper adds no panics *)
  Theorem multi_no_new_panic ops : forall ds : list (boxed F),
    Forall (fun b => always (fun _ => True) (exec (bx_impl b) (bx_state b) ops)) ds ->
    always (fun _ => True) (exec MD ds ops).
  Proof.
    induction ops as [|o ops IH]; intros ds H; [exact Logic.I|].
    cbn [exec] in *.
    assert (Forall (fun b => always (fun r => always (fun _ => True) (exec (bx_impl b) (fst r) ops))
                               (step (bx_impl b) (bx_state b) o)) ds) as H'.
    { eapply Forall_impl; [|exact H]. intros b Hb. apply (proj1 (always_bind_iff _ _ _)) in Hb.
      eapply always_mono; [exact Hb|]. intros [s a] Hs. cbn. apply (proj1 (always_bind_iff _ _ _)) in Hs.
      eapply always_mono; [exact Hs|]. auto. }
    clear H.
    assert (always (fun r => Forall (fun b => always (fun _ => True) (exec (bx_impl b) (bx_state b) ops)) (fst r))
              (step MD ds o)) as Hs.
    { assert (forall (g : boxed F -> M (boxed F)),
        (forall b, In b ds -> always (fun b' => always (fun _ => True) (exec (bx_impl b') (bx_state b') ops)) (g b)) ->
        always (fun bs => Forall (fun b => always (fun _ => True) (exec (bx_impl b) (bx_state b) ops)) bs) (mapM g ds)) as Hg.
      { intros g Hg. eapply always_mono.
        - apply mapM_always with (P := fun _ b' => always (fun _ => True) (exec (bx_impl b') (bx_state b') ops)).
          apply Forall_forall. exact Hg.
        - intros bs Hbs. clear -Hbs. induction Hbs; constructor; auto. }
      assert (forall (g : boxed F -> M (boxed F * F)),
        (forall b, In b ds -> always (fun b' => always (fun _ => True) (exec (bx_impl (fst b')) (bx_state (fst b')) ops)) (g b)) ->
        always (fun bs => Forall (fun b => always (fun _ => True) (exec (bx_impl (fst b)) (bx_state (fst b)) ops)) bs) (mapM g ds)) as Hg2.
      { intros g Hg'. eapply always_mono.
        - apply mapM_always with (P := fun _ b' => always (fun _ => True) (exec (bx_impl (fst b')) (bx_state (fst b')) ops)).
          apply Forall_forall. exact Hg'.
        - intros bs Hbs. clear -Hbs. induction Hbs; constructor; auto. }
      rewrite Forall_forall in H'.
      destruct o as [x|l|v|q]; cbn.
      - eapply always_bind; [apply Hg|intros bs Hbs; exact Hbs].
        intros b Hb. specialize (H' b Hb). cbn in H'. apply (proj1 (always_bind_iff _ _ _)) in H'.
        eapply always_bind; [exact H'|]. intros s Hs. exact Hs.
      - eapply always_bind; [apply Hg|intros bs Hbs; exact Hbs].
        intros b Hb. specialize (H' b Hb). cbn in H'. apply (proj1 (always_bind_iff _ _ _)) in H'.
        eapply always_bind; [exact H'|]. intros s Hs. exact Hs.
      - unfold multi_query. rewrite bind_assoc. eapply always_bind; [apply Hg2|].
        + intros b Hb. specialize (H' b Hb). cbn in H'. apply (proj1 (always_bind_iff _ _ _)) in H'.
          eapply always_bind; [exact H'|]. intros [s a] Hs. exact Hs.
        + intros rs Hrs. cbn. clear -Hrs. induction Hrs; constructor; auto.
      - unfold multi_query. rewrite bind_assoc. eapply always_bind; [apply Hg2|].
        + intros b Hb. specialize (H' b Hb). cbn in H'. apply (proj1 (always_bind_iff _ _ _)) in H'.
          eapply always_bind; [exact H'|]. intros [s a] Hs. exact Hs.
        + intros rs Hrs. cbn. clear -Hrs. induction Hrs; constructor; auto. }
    eapply always_bind; [exact Hs|]. intros [ds' a] Hds. eapply always_bind; [apply IH; exact Hds|].
    intros [? ?] _. exact Logic.I.
  Qed.

  (** count: the members' counts add up *)
  Lemma multi_count_sum (ds : list (boxed F)) (ns : list Z) :
    Forall2 (fun b n => d_count (bx_impl b) (bx_state b) = Ret n) ds ns ->
    multi_count ds = Ret (fold_left Z.add ns 0%Z).
  Proof.
    intros H. unfold multi_count.
    assert (mapM (fun b => d_count (bx_impl b) (bx_state b)) ds = Ret ns) as ->; [|reflexivity].
    induction H as [|b n ds ns Hb H IH]; cbn; auto. rewrite Hb. cbn. now rewrite IH.
  Qed.

  Lemma fold_left_add_repeat m n a : fold_left Z.add (repeat n m) a = (a + Z.of_nat m * n)%Z.
  Proof. revert a; induction m as [|m IH]; intros a; cbn [repeat fold_left]; [lia|]. rewrite IH. lia. Qed.

  (** with members that count correctly, MultiDigest reports (number of members) x (number of items) *)
  Theorem multi_count_multiplied (ds : list (boxed F)) ops :
    Forall (fun b => whenever (fun r => d_count (bx_impl b) (fst r) = Ret (Z.of_nat (length (items_of ops))))
                       (exec (bx_impl b) (bx_state b) ops)) ds ->
    whenever (fun r => d_count MD (fst r) = Ret (Z.of_nat (length ds) * Z.of_nat (length (items_of ops)))%Z)
      (exec MD ds ops).
  Proof.
    intros H. eapply whenever_mono; [apply multi_forwards|].
    intros [ds' a] (outs & H1 & E & _ & _). cbn [fst d_count multi_digest] in *. subst ds'.
    rewrite (multi_count_sum (ns := repeat (Z.of_nat (length (items_of ops))) (length ds))).
    - now rewrite fold_left_add_repeat.
    - apply Forall2_map_l. revert H. clear -H1. induction H1 as [|b out ds outs Hb H1 IH]; intros H; cbn; constructor.
      + inversion H; subst. destruct Hb as (s' & -> & Hr). cbn.
        rewrite whenever_returns in H3. specialize (H3 _ Hr). exact H3.
      + apply IH. now inversion H.
  Qed.
End Multi.

(** ** SymDigest *)
Section Sym.
  Context {F : Type} {FO : FloatOps F}.
  Variable D : digest F.
  Notation SD := (sym_digest D).

  Lemma cmp_unwrap_whenever x y :
    whenever (fun c => fcmp x y = Some c) (cmp_unwrap x y).
  Proof. unfold cmp_unwrap. destruct (fcmp x y); cbn; auto. Qed.

  Lemma sym_step o (s : sym D) :
    whenever (fun r => exists al ah,
        returns (step D (low_digest s) o) (low_digest (fst r), al) /\
        returns (step D (high_digest s) (mirror o)) (high_digest (fst r), ah) /\
        (is_query o = false /\ al = [] /\ ah = [] /\ snd r = [] \/
         is_query o = true /\ exists l h, al = [l] /\ ah = [h] /\ snd r = [sym_combine o l h]))
      (step SD s o).
  Proof.
    destruct o as [x|l|v|q]; cbn [step d_add d_add_buffer d_est_q d_est_v sym_digest mirror].
    - unfold sym_add. rewrite bind_assoc.
      eapply whenever_bind; [apply whenever_returns; intros b Hb; exact Hb|]. intros l Hl. rewrite bind_assoc.
      eapply whenever_bind; [apply whenever_returns; intros b Hb; exact Hb|]. intros h Hh. cbn.
      exists [], []. split; [|split]; [eapply returns_bind; [eassumption|reflexivity] ..|]. auto.
    - unfold sym_add_buffer. rewrite bind_assoc.
      eapply whenever_bind; [apply whenever_returns; intros b Hb; exact Hb|]. intros l' Hl. rewrite bind_assoc.
      eapply whenever_bind; [apply whenever_returns; intros b Hb; exact Hb|]. intros h Hh. cbn.
      exists [], []. split; [|split]; [eapply returns_bind; [eassumption|reflexivity] ..|]. auto.
    - unfold sym_est_q. rewrite bind_assoc.
      eapply whenever_bind; [apply whenever_returns; intros b Hb; exact Hb|]. intros [l el] Hl. rewrite bind_assoc.
      eapply whenever_bind; [apply whenever_returns; intros b Hb; exact Hb|]. intros [h eh] Hh. rewrite bind_assoc.
      eapply whenever_bind; [apply cmp_unwrap_whenever|]. intros c Hc. cbn.
      exists [el], [eh]. split; [|split]; [eapply returns_bind; [eassumption|reflexivity] ..|].
      right. split; auto. exists el, eh. repeat split.
      unfold sym_combine, flt, fgt. cbv zeta. rewrite Hc. destruct c; reflexivity.
    - unfold sym_est_v. rewrite bind_assoc.
      eapply whenever_bind; [apply whenever_returns; intros b Hb; exact Hb|]. intros [l el] Hl. rewrite bind_assoc.
      eapply whenever_bind; [apply whenever_returns; intros b Hb; exact Hb|]. intros [h eh] Hh. rewrite bind_assoc.
      eapply whenever_bind; [apply cmp_unwrap_whenever|]. intros c Hc. cbn.
      exists [el], [eh]. split; [|split]; [eapply returns_bind; [eassumption|reflexivity] ..|].
      right. split; auto. exists el, eh. repeat split.
      unfold sym_combine, flt, fgt. rewrite Hc. destruct c; reflexivity.
  Qed.

  Theorem sym_forwards ops : forall s : sym D,
    whenever (fun r => exists al ah,
        returns (exec D (low_digest s) ops) (low_digest (fst r), al) /\
        returns (exec D (high_digest s) (map mirror ops)) (high_digest (fst r), ah) /\
        sym_answers ops al ah (snd r))
      (exec SD s ops).
  Proof.
    induction ops as [|o ops IH]; intros s.
    - cbn. exists [], []. repeat split; constructor.
    - cbn [exec]. eapply whenever_bind; [apply sym_step|]. intros [s1 a1] (al & ah & H1 & H2 & H3). cbn [fst snd] in *.
      eapply whenever_bind; [apply IH|]. intros [s2 a2] (al2 & ah2 & H4 & H5 & H6). cbn [whenever fst snd] in *.
      exists (al ++ al2), (ah ++ ah2). split; [|split].
      + cbn [exec]. eapply returns_bind; [exact H1|]. cbn beta iota. eapply returns_bind; [exact H4|]. reflexivity.
      + cbn [exec map]. eapply returns_bind; [exact H2|]. cbn beta iota. eapply returns_bind; [exact H5|]. reflexivity.
      + destruct H3 as [(Hq & -> & -> & ->)|(Hq & l & h & -> & -> & ->)]; cbn [app]; [apply sa_add|apply sa_query]; auto.
  Qed.

  Lemma sym_count s : d_count SD s = d_count D (low_digest s).
  Proof. reflexivity. Qed.

  Theorem sym_counting ok I : counting D ok I ->
    counting SD (fun x => ok x /\ ok (fneg x)) (fun s n => I (low_digest s) n /\ I (high_digest s) n).
  Proof.
    intros HC. split.
    - intros s n [H _]. cbn. now apply (ct_count HC).
    - intros s n x [Hl Hh] [Hx Hx']. cbn. unfold sym_add.
      eapply whenever_bind; [apply (ct_add HC); eassumption|]. intros l H1.
      eapply whenever_bind; [apply (ct_add HC); eassumption|]. intros h H2. cbn. auto.
    - intros s n l [Hl Hh] Hx. cbn. unfold sym_add_buffer.
      eapply whenever_bind; [apply (ct_add_buffer HC); [eassumption|]|].
      { eapply Forall_impl; [|exact Hx]. intros y [Hy _]; exact Hy. }
      intros l' H1.
      eapply whenever_bind; [apply (ct_add_buffer HC); [eassumption|]|].
      { apply Forall_forall. intros y Hy. apply in_map_iff in Hy as (x & <- & Hx'). rewrite Forall_forall in Hx.
        now apply Hx in Hx'. }
      intros h H2. rewrite map_length in H2. cbn. auto.
    - intros s n v [Hl Hh]. cbn. unfold sym_est_q.
      eapply whenever_bind; [apply (ct_est_q HC); eassumption|]. intros [l el] H1.
      eapply whenever_bind; [apply (ct_est_q HC); eassumption|]. intros [h eh] H2.
      eapply whenever_bind; [apply whenever_true|]. intros c _. cbn. auto.
    - intros s n v [Hl Hh]. cbn. unfold sym_est_v.
      eapply whenever_bind; [apply (ct_est_v HC); eassumption|]. intros [l el] H1.
      eapply whenever_bind; [apply (ct_est_v HC); eassumption|]. intros [h eh] H2.
      eapply whenever_bind; [apply whenever_true|]. intros c _. cbn. auto.
  Qed.
End Sym.

Lemma items_of_mirror {F} {FO : FloatOps F} (ops : list (op F)) : items_of (map mirror ops) = map fneg (items_of ops).
Proof.
  induction ops as [|o ops IH]; [reflexivity|]. cbn [map]. rewrite items_of_cons, (items_of_cons o), map_app, IH.
  f_equal. destruct o; cbn; rewrite ?app_nil_r; auto.
Qed.

(** ** SymDigest over the reference digest *)
Section SymLinear.
  Context {F : Type} {FO : FloatOps F} {FL : FloatLaws F}.
  Notation LD := (linear_digest F).
  Notation SL := (sym_digest LD).

  Lemma xcmp_neg x y : xcmp (xneg x) (xneg y) = xcmp y x.
  Proof.
    destruct x as [|[]|a], y as [|[]|b]; cbn; auto. f_equal.
    destruct (Rcompare_spec (-a) (-b)), (Rcompare_spec b a); auto; exfalso; lra.
  Qed.
  Lemma xneg_neg x : xneg (xneg x) = x.
  Proof. destruct x as [|[]|a]; cbn; auto. now rewrite Ropp_involutive. Qed.

  Lemma flt_neg x v : flt (fneg x) v = flt (fneg v) x.
  Proof. unfold flt. rewrite !fcmp_val, !fneg_val. rewrite <- (xneg_neg (fval v)) at 1. now rewrite xcmp_neg. Qed.
  Lemma fle_neg x v : fle (fneg x) v = fle (fneg v) x.
  Proof. unfold fle. rewrite !fcmp_val, !fneg_val. rewrite <- (xneg_neg (fval v)) at 1. now rewrite xcmp_neg. Qed.
  Lemma fisnan_neg x : fisnan (fneg x) = fisnan x.
  Proof. unfold fisnan. rewrite !fcmp_val, !fneg_val, xcmp_neg. reflexivity. Qed.
  Lemma no_nan_neg l : no_nan l -> no_nan (map fneg l).
  Proof. intros H. unfold no_nan in *. apply Forall_map. eapply Forall_impl; [|exact H]. intros x Hx. now rewrite fisnan_neg. Qed.

  Lemma n_lt_mirror l v : no_nan l -> fisnan v = false -> n_lt (map fneg l) v + n_le l (fneg v) = length l.
  Proof.
    intros H Hv. unfold n_lt, n_le. induction H as [|x l Hx H IH]; cbn; auto.
    rewrite flt_neg, (flt_negb_fle (fneg v) x) by (rewrite ?fisnan_neg; auto).
    destruct (fle x (fneg v)); cbn; lia.
  Qed.
  Lemma n_le_mirror l v : no_nan l -> fisnan v = false -> n_le (map fneg l) v + n_lt l (fneg v) = length l.
  Proof.
    intros H Hv. unfold n_lt, n_le. induction H as [|x l Hx H IH]; cbn; auto.
    rewrite fle_neg, (flt_negb_fle x (fneg v)) by (rewrite ?fisnan_neg; auto).
    destruct (fle (fneg v) x); cbn; lia.
  Qed.

  (** position i from the top of the negated data is position n-1-i of the data *)
  Lemma order_stat_mirror l i v : no_nan l -> i < length l -> order_stat (map fneg l) i v ->
    exists x, fval x = fval (fneg v) /\ order_stat l (length l - 1 - i) x.
  Proof.
    intros Hn Hi (Hin & Hr). apply in_map_iff in Hin as (x & <- & Hx).
    assert (fisnan x = false) as Hxn by (unfold no_nan in Hn; rewrite Forall_forall in Hn; auto).
    assert (fval (fneg (fneg x)) = fval x) as E by now rewrite !fneg_val, xneg_neg.
    exists x. split; [now rewrite E|]. split; [exact Hx|].
    pose proof (@n_lt_mirror l (fneg x) Hn) as A. pose proof (@n_le_mirror l (fneg x) Hn) as B.
    rewrite fisnan_neg in A, B. specialize (A Hxn). specialize (B Hxn).
    assert (n_le l (fneg (fneg x)) = n_le l x) as E1.
    { unfold n_le. f_equal. apply filter_ext. intros y. unfold fle. now rewrite !fcmp_val, E. }
    assert (n_lt l (fneg (fneg x)) = n_lt l x) as E2.
    { unfold n_lt. f_equal. apply filter_ext. intros y. unfold flt. now rewrite !fcmp_val, E. }
    lia.
  Qed.

  Lemma sym_linear_inv (ops : list (op F)) :
    whenever (fun r : sym LD * list F => Permutation (items_of ops) (low_digest (fst r)) /\
                       Permutation (map fneg (items_of ops)) (high_digest (fst r)))
      (exec SL (Sym LD linear_new linear_new) ops).
  Proof.
    eapply whenever_mono; [apply sym_forwards|]. intros [s a] (al & ah & H1 & H2 & _). cbn [fst low_digest high_digest] in *.
    pose proof (linear_history ops) as A. pose proof (linear_history (map mirror ops)) as B.
    rewrite whenever_returns in A, B. apply A in H1. apply B in H2. cbn [fst] in *.
    rewrite items_of_mirror in H2. auto.
  Qed.

  (** value query: never panics, answers an item (up to the sign of zero) *)
  Theorem sym_linear_value (ops : list (op F)) (q : F) (r : R) :
    let its := items_of ops in let n := length its in
    its <> [] -> no_nan its -> (Z.of_nat n <= fint)%Z -> (Z.of_nat n < 2 ^ 64)%Z ->
    fval q = XFin r -> (0 <= r <= 1)%R -> r <> (1/2)%R ->
    exists r' p p', frnd (1 - r) = XFin r' /\ frnd (r * INR n) = XFin p /\ frnd (r' * INR n) = XFin p' /\
    whenever (fun res => always (fun out =>
        exists x, fval (snd out) = fval x /\
          order_stat its (if Rlt_dec r (1/2) then val_index n p else n - 1 - val_index n p') x)
      (d_est_v SL (fst res) q)) (exec SL (Sym LD linear_new linear_new) ops).
  Proof.
    intros its n Hne Hnn H1 H2 Hq Hr Hhalf.
    assert (0 < n) as Hpos by (subst n; destruct its; cbn; [congruence|lia]).
    destruct (@frnd_range F FO FL 0 1 (1 - r)) as (r' & Hr' & Hr'0 & Hr'1); [apply fexact_0|apply fexact_1|lra|].
    assert (fval (fsub f1 q) = XFin r') as Hq'.
    { rewrite (fsub_fin fval_f1 Hq). exact Hr'. }
    destruct (@linear_est_v_ok F FO FL its q r) as (p & Hp & _ & _); auto.
    assert (map fneg its <> []) as Hne' by (destruct its; cbn; congruence).
    assert (length (map fneg its) = n) as Hl by apply map_length.
    destruct (@linear_est_v_ok F FO FL (map fneg its) (fsub f1 q) r') as (p' & Hp' & _ & _); auto; rewrite ?Hl; auto; try lra.
    { now apply no_nan_neg. }
    rewrite Hl in Hp'.
    exists r', p, p'. split; [auto|]. split; [auto|]. split; [auto|].
    eapply whenever_mono; [apply sym_linear_inv|]. fold its. intros [s a] [PL PH]. cbn [fst] in *.
    destruct s as [lo hi]. cbn [low_digest high_digest dst linear_digest] in lo, hi, PL, PH.
    assert (length lo = n) as Ll by (now rewrite <- (Permutation_length PL)).
    assert (length hi = n) as Lh by (now rewrite <- (Permutation_length PH)).
    destruct (@linear_est_v_ok F FO FL lo q r) as (p2 & Hp2 & _ & Al); auto; rewrite ?Ll; auto.
    { now apply (perm_nonnil PL). } { unfold no_nan. eapply Permutation_Forall; eauto. }
    destruct (@linear_est_v_ok F FO FL hi (fsub f1 q) r') as (p2' & Hp2' & _ & Ah); auto; rewrite ?Lh; auto; try lra.
    { now apply (perm_nonnil PH). } { unfold no_nan. eapply Permutation_Forall; [exact PH|]. now apply no_nan_neg. }
    rewrite Ll in Hp2, Al. rewrite Lh in Hp2', Ah. fold n in Hp.
    rewrite Hp in Hp2. injection Hp2 as <-. rewrite Hp' in Hp2'. injection Hp2' as <-.
    cbn [d_est_v sym_digest]. unfold sym_est_v. cbn [d_est_v linear_digest].
    eapply always_bind; [exact Al|]. intros [l el] [_ Ol].
    eapply always_bind; [exact Ah|]. intros [h eh] [_ Oh]. cbn [snd] in *.
    unfold cmp_unwrap. rewrite fcmp_val, Hq, fval_fhalf. cbn [xcmp unwrap bind always snd].
    destruct (Rcompare_spec r (1/2)) as [E|E|E]; [|congruence|]; destruct (Rlt_dec r (1/2)) as [E'|E']; try lra.
    - exists el. split; auto. destruct Ol as (A & B). split.
      + eapply Permutation_in; [symmetry; exact PL|exact A].
      + now rewrite (n_lt_perm el PL), (n_le_perm el PL).
    - destruct (@order_stat_mirror its (val_index n p') eh Hnn) as (x & Hx & Ox).
      + fold n. unfold val_index. lia.
      + destruct Oh as (A & B). split.
        * eapply Permutation_in; [symmetry; exact PH|exact A].
        * now rewrite (n_lt_perm eh PH), (n_le_perm eh PH).
      + exists x. split; auto.
  Qed.
End SymLinear.

(** exact arithmetic: rank error of at most one position on either side of 1/2 *)
Theorem sym_linear_rank_error (ops : list (op xr)) (r : R) :
  let its := items_of ops in let n := length its in
  its <> [] -> no_nan its -> (Z.of_nat n < 2 ^ 64)%Z -> (0 <= r <= 1)%R -> r <> (1/2)%R ->
  whenever (fun res => always (fun out => exists i,
        order_stat its i (snd out) /\ (Rabs (r * INR n - (INR i + 1/2)) <= 1)%R)
      (d_est_v (sym_digest (linear_digest xr)) (fst res) (XFin r)))
    (exec (sym_digest (linear_digest xr)) (Sym (linear_digest xr) linear_new linear_new) ops).
Proof.
  intros its n Hne Hnn H2 Hr Hhalf.
  assert (4096 <= Z.max 4096 (Z.of_nat n))%Z as HB by lia.
  destruct (@sym_linear_value xr xr_ops (xr_laws HB) ops (XFin r) r) as (r' & p & p' & Hr' & Hp & Hp' & HW); auto.
  { cbn [fint xr_laws]. fold its n. lia. }
  cbn [frnd xr_laws] in Hr', Hp, Hp'. injection Hr' as <-. injection Hp as <-. injection Hp' as <-.
  fold its n in HW.
  assert (0 < n) as Hpos by (subst n; destruct its; cbn; [congruence|lia]).
  assert (1 <= INR n)%R as HposR by (change 1%R with (INR 1); apply le_INR; lia).
  refine (@whenever_mono _ _ _ _ HW _). intros [s a] HA. cbn [fst] in *.
  eapply always_mono; [exact HA|]. intros [s' v] (x & Ex & Ox). cbn [snd fval xr_laws] in *. subst v.
  eexists. split; [exact Ox|].
  assert (forall y, (0 <= y <= INR n)%R -> exists i, INR i = IZR (ZnearestA y) /\ val_index n y = Nat.min i (n-1) /\ (Rabs (IZR (ZnearestA y) - y) <= 1/2)%R) as Hnear.
  { intros y Hy. exists (Z.to_nat (ZnearestA y)). split; [|split].
    - rewrite INR_IZR_INZ, Z2Nat.id; auto. apply ZnearestA_ge. lra.
    - reflexivity.
    - rewrite Rabs_minus_sym. pose proof (Znearest_half (Z.leb 0) y). lra. }
  destruct (Rlt_dec r (1/2)) as [E|E].
  - destruct (Hnear (r * INR n)%R) as (i & Hi & -> & Hd); [split; nra|].
    rewrite <- Hi in Hd. apply Rabs_le_inv in Hd. apply Rabs_le.
    destruct (le_lt_dec i (n-1)) as [Hc|Hc].
    + rewrite Nat.min_l by auto. lra.
    + rewrite Nat.min_r by lia. rewrite minus_INR by lia. cbn [INR].
      assert (INR n <= INR i)%R by (apply le_INR; lia). nra.
  - destruct (Hnear ((1 - r) * INR n)%R) as (i & Hi & -> & Hd); [split; nra|].
    rewrite <- Hi in Hd. apply Rabs_le_inv in Hd. apply Rabs_le.
    destruct (le_lt_dec i (n-1)) as [Hc|Hc].
    + rewrite Nat.min_l by auto. rewrite !minus_INR by lia. cbn [INR]. lra.
    + rewrite Nat.min_r by lia. rewrite minus_INR by lia. rewrite minus_INR by lia. cbn [INR].
      assert (INR n <= INR i)%R by (apply le_INR; lia). nra.
Qed.

(** ** statements used by the property file *)
Lemma buffered_exec_count F (D : digest F) (ok : F -> Prop) (I : dst D -> nat -> Prop) (c : nat)
    (d : dst D) (ops : list (op F)) :
  counting D ok I -> I d 0 -> Forall ok (items_of ops) ->
  whenever (fun r => d_count (buffered_digest D) (fst r) = Ret (Z.of_nat (length (items_of ops))))
           (exec (buffered_digest D) (buffered_new D d c) ops).
Proof.
  intros HC H0 Hok. eapply counting_exec_count; [apply (buffered_counting c HC)| |exact Hok].
  cbn. repeat split; auto. exists 0. auto.
Qed.

Lemma buffered_new_cap0_panics F (D : digest F) (d : dst D) (items : list F) :
  d_add_buffer (buffered_digest D) (buffered_new D d 0) items = Panic.
Proof. reflexivity. Qed.

Lemma buffered_add_cap0 F (D : digest F) (d : dst D) (x : F) :
  d_add (buffered_digest D) (buffered_new D d 0) x =
  bind (d_add_buffer D d [x]) (fun d' => Ret (buffered_new D d' 0)).
Proof. reflexivity. Qed.

Lemma multi_count_twice : exists (ds : list (boxed xr)) (ops : list (op xr)),
  length (items_of ops) = 1 /\
  exists r, exec (multi_digest xr) ds ops = Ret r /\ d_count (multi_digest xr) (fst r) = Ret 2%Z.
Proof.
  exists [Box (linear_digest xr) linear_new; Box (linear_digest xr) linear_new], [Add (XFin 1)].
  split; [reflexivity|]. eexists. split; reflexivity.
Qed.

Lemma sym_exec_count F (FO : FloatOps F) (D : digest F) (ok : F -> Prop) (I : dst D -> nat -> Prop)
    (l h : dst D) (ops : list (op F)) :
  counting D ok I -> I l 0 -> I h 0 -> Forall (fun x => ok x /\ ok (fneg x)) (items_of ops) ->
  whenever (fun r => d_count (sym_digest D) (fst r) = Ret (Z.of_nat (length (items_of ops))))
           (exec (sym_digest D) (Sym D l h) ops).
Proof.
  intros HC Hl Hh Hok. eapply counting_exec_count; [apply (sym_counting HC)| |exact Hok]. cbn. auto.
Qed.
