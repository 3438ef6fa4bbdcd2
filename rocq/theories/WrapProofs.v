(** Proofs about BufferedDigest, MultiDigest and SymDigest. *)
From Coq Require Import List Arith ZArith Lia Bool Permutation Sorted Reals Lra FunctionalExtensionality.
From Flocq Require Import Core.
From Verif Require Import Base Floats XReal Digest Spec FloatFacts History LinearProofs.
Set Implicit Arguments.

(** a history made of batches: more than [c] and at most [2 c] items, or at most [c] just before a query *)
Inductive batched {F : Type} (c : nat) : list (op F) -> Prop :=
| batched_nil : batched c []
| batched_full b ops : c < length b <= 2 * c -> batched c ops -> batched c (AddBuf b :: ops)
| batched_quant b v ops : length b <= c -> batched c ops -> batched c (AddBuf b :: Quant v :: ops)
| batched_val b q ops : length b <= c -> batched c ops -> batched c (AddBuf b :: Val q :: ops).

(** ** counting *)
Section Counting.
  Context {F : Type} {D : digest F} {ok : F -> Prop} {I : dst D -> nat -> Prop}.

  Lemma counting_exec (HC : counting D ok I) ops s n :
    I s n -> Forall ok (items_of ops) ->
    whenever (fun r => I (fst r) (n + length (items_of ops))) (exec D s ops).
  Proof.
    revert s n; induction ops as [|o ops IH]; intros s n HI Hok.
    - cbn. now rewrite Nat.add_0_r.
    - cbn [exec].
      rewrite items_of_cons in Hok. apply Forall_app in Hok as [Ho Hok].
      rewrite items_of_cons, app_length, Nat.add_assoc.
      apply whenever_bind with (P := fun r => I (fst r) (n + length (items_of [o]))).
      + destruct o as [x|l|v|q]; cbn [step items_of app length] in *.
        * eapply whenever_bind; [eapply ct_add; eauto; now inversion Ho|]. auto.
        * rewrite app_nil_r in *. eapply whenever_bind; [eapply ct_add_buffer; eauto|]. auto.
        * rewrite Nat.add_0_r. eapply whenever_bind; [eapply ct_est_q; eauto|]. intros []; auto.
        * rewrite Nat.add_0_r. eapply whenever_bind; [eapply ct_est_v; eauto|]. intros []; auto.
      + intros [s' a] H. eapply whenever_bind; [eapply IH; eauto|]. intros [s'' b] H'. exact H'.
  Qed.

  Lemma counting_exec_count (HC : counting D ok I) ops s :
    I s 0 -> Forall ok (items_of ops) ->
    whenever (fun r => d_count D (fst r) = Ret (Z.of_nat (length (items_of ops)))) (exec D s ops).
  Proof.
    intros H0 Hok. eapply whenever_mono; [eapply counting_exec; eauto|].
    intros [s' a] H. eapply ct_count; eauto.
  Qed.
End Counting.

Section LinearCounting.
  Context {F : Type} {FO : FloatOps F}.
  Lemma linear_counting : counting (linear_digest F) (fun _ => True) (fun s n => length s = n).
  Proof.
    constructor; cbn.
    - intros s n <-; reflexivity.
    - intros s n x <- _. unfold linear_add. rewrite app_length. reflexivity.
    - intros s n l <- _. unfold linear_add_buffer. apply app_length.
    - auto.
    - intros s n q <-. eapply whenever_mono; [apply linear_est_v_perm|].
      intros [s' a] H. symmetry. now apply Permutation_length.
  Qed.
End LinearCounting.

(** ** BufferedDigest *)
Section Buffered.
  Context {F : Type}.
  Variable D : digest F.
  Notation BD := (buffered_digest D).

  (** what one push does: possibly one batch for the inner digest, and the remaining buffer *)
  Definition push_ops (c : nat) (buf items : list F) : list (op F) * list F :=
    if c <? length (buf ++ items) then ([AddBuf (buf ++ items)], []) else ([], buf ++ items).

  Fixpoint pushes_ops (c : nat) (buf : list F) (cs : list (list F)) : list (op F) * list F :=
    match cs with
    | [] => ([], buf)
    | i :: cs' => let (o1, b1) := push_ops c buf i in
                  let (o2, b2) := pushes_ops c b1 cs' in (o1 ++ o2, b2)
    end.

  Definition step_ops (c : nat) (buf : list F) (o : op F) : list (op F) * list F :=
    match o with
    | Add x => push_ops c buf [x]
    | AddBuf l => pushes_ops c buf (chunks_list c l)
    | Quant v => ([AddBuf buf; Quant v], [])
    | Val q => ([AddBuf buf; Val q], [])
    end.

  Fixpoint inner_ops (c : nat) (buf : list F) (ops : list (op F)) : list (op F) * list F :=
    match ops with
    | [] => ([], buf)
    | o :: ops' => let (o1, b1) := step_ops c buf o in
                   let (o2, b2) := inner_ops c b1 ops' in (o1 ++ o2, b2)
    end.

  Definition is_push (o : op F) := match o with AddBuf _ => True | _ => False end.

  Lemma push_ops_spec c buf items :
    items_of (fst (push_ops c buf items)) ++ snd (push_ops c buf items) = buf ++ items
    /\ length (snd (push_ops c buf items)) <= c
    /\ Forall is_push (fst (push_ops c buf items)).
  Proof.
    unfold push_ops. destruct (Nat.ltb_spec c (length (buf ++ items))); cbn.
    - rewrite !app_nil_r. repeat split; auto; try lia. repeat constructor.
    - repeat split; auto.
  Qed.

  Lemma pushes_ops_spec c cs buf :
    length buf <= c ->
    items_of (fst (pushes_ops c buf cs)) ++ snd (pushes_ops c buf cs) = buf ++ concat cs
    /\ length (snd (pushes_ops c buf cs)) <= c
    /\ Forall is_push (fst (pushes_ops c buf cs)).
  Proof.
    revert buf; induction cs as [|i cs IH]; intros buf Hb; cbn [pushes_ops concat].
    - cbn. rewrite app_nil_r. auto.
    - pose proof (push_ops_spec c buf i) as (A1 & A2 & A3).
      destruct (push_ops c buf i) as [o1 b1]; cbn [fst snd] in *.
      specialize (IH b1 A2) as (B1 & B2 & B3).
      destruct (pushes_ops c b1 cs) as [o2 b2]; cbn [fst snd] in *.
      split; [|split; [exact B2|apply Forall_app; auto]].
      rewrite items_of_app, <- app_assoc, B1, app_assoc, A1, app_assoc. reflexivity.
  Qed.

  Lemma queries_push ops pre rest :
    Forall is_push ops -> queries_of pre (ops ++ rest) = queries_of (pre ++ items_of ops) rest.
  Proof.
    intros H. revert pre; induction H as [|o ops Ho H IH]; intros pre; cbn.
    - now rewrite app_nil_r.
    - destruct o; cbn in Ho; try tauto. cbn. now rewrite IH, app_assoc.
  Qed.

  Lemma inner_ops_spec c ops buf pre :
    1 <= c -> length buf <= c ->
    items_of (fst (inner_ops c buf ops)) ++ snd (inner_ops c buf ops) = buf ++ items_of ops
    /\ length (snd (inner_ops c buf ops)) <= c
    /\ queries_of pre (fst (inner_ops c buf ops)) = queries_of (pre ++ buf) ops.
  Proof.
    intros Hc. revert buf pre; induction ops as [|o ops IH]; intros buf pre Hb.
    - cbn. rewrite app_nil_r. auto.
    - cbn [inner_ops].
      destruct o as [x|l|v|q]; cbn [step_ops].
      + pose proof (push_ops_spec c buf [x]) as (A1 & A2 & A3).
        destruct (push_ops c buf [x]) as [o1 b1]; cbn [fst snd] in *.
        specialize (IH b1 (pre ++ items_of o1) A2) as (B1 & B2 & B3).
        destruct (inner_ops c b1 ops) as [o2 b2]; cbn [fst snd] in *.
        split; [|split; [exact B2|]].
        * rewrite items_of_app, <- app_assoc, B1, app_assoc, A1, <- app_assoc. reflexivity.
        * rewrite queries_push, B3 by exact A3. cbn [queries_of].
          now rewrite <- (app_assoc pre), A1, app_assoc.
      + pose proof (@pushes_ops_spec c (chunks_list c l) buf Hb) as (A1 & A2 & A3).
        rewrite chunks_list_concat in A1 by exact Hc.
        destruct (pushes_ops c buf (chunks_list c l)) as [o1 b1]; cbn [fst snd] in *.
        specialize (IH b1 (pre ++ items_of o1) A2) as (B1 & B2 & B3).
        destruct (inner_ops c b1 ops) as [o2 b2]; cbn [fst snd] in *.
        split; [|split; [exact B2|]].
        * rewrite items_of_app, <- app_assoc, B1, app_assoc, A1, <- app_assoc. reflexivity.
        * rewrite queries_push, B3 by exact A3. cbn [queries_of].
          now rewrite <- (app_assoc pre), A1, app_assoc.
      + specialize (IH [] (pre ++ buf) ltac:(cbn; lia)) as (B1 & B2 & B3).
        destruct (inner_ops c [] ops) as [o2 b2]; cbn [fst snd] in *.
        split; [|split; [exact B2|]].
        * cbn. rewrite <- app_assoc. f_equal. exact B1.
        * cbn. rewrite B3. now rewrite app_nil_r.
      + specialize (IH [] (pre ++ buf) ltac:(cbn; lia)) as (B1 & B2 & B3).
        destruct (inner_ops c [] ops) as [o2 b2]; cbn [fst snd] in *.
        split; [|split; [exact B2|]].
        * cbn. rewrite <- app_assoc. f_equal. exact B1.
        * cbn. rewrite B3. now rewrite app_nil_r.
  Qed.

  Definition mkB d buf c : buffered D := {| b_digest := d; b_buffer := buf; b_capacity := c |}.

  Lemma push_sim c d buf items :
    buffered_push (mkB d buf c) items =
    bind (exec D d (fst (push_ops c buf items))) (fun r => Ret (mkB (fst r) (snd (push_ops c buf items)) c)).
  Proof.
    unfold buffered_push, push_ops. cbn [b_digest b_buffer b_capacity mkB].
    destruct (c <? length (buf ++ items)).
    - unfold buffered_flush; cbn. rewrite !bind_assoc. apply bind_ext. intros d'. reflexivity.
    - reflexivity.
  Qed.

  Lemma exec_push_nil d ops : Forall is_push ops -> forall r, returns (exec D d ops) r -> snd r = [].
  Proof.
    intros H. revert d; induction H as [|o ops Ho H IH]; intros d r Hr; cbn in *.
    - now subst.
    - destruct o; cbn in Ho; try tauto. cbn in Hr. rewrite bind_assoc in Hr.
      apply returns_bind_inv in Hr as (d' & _ & Hr). cbn in Hr.
      apply returns_bind_inv in Hr as ([s b] & Hr' & Hr). cbn in Hr. subst r. cbn. now apply IH in Hr'.
  Qed.

  Lemma bind_ext_returns {A B} (m : M A) (f g : A -> M B) :
    (forall a, returns m a -> f a = g a) -> bind m f = bind m g.
  Proof.
    induction m as [a| | |k IH]; cbn; auto.
    intros H. f_equal. apply functional_extensionality. intros b. apply IH. intros a Ha. apply H. eauto.
  Qed.

  Lemma pushes_sim c cs : forall d buf,
    foldM (@buffered_push F D) (mkB d buf c) cs =
    bind (exec D d (fst (pushes_ops c buf cs))) (fun r => Ret (mkB (fst r) (snd (pushes_ops c buf cs)) c)).
  Proof.
    induction cs as [|i cs IH]; intros d buf; cbn [foldM pushes_ops]; [reflexivity|].
    rewrite push_sim, bind_assoc.
    destruct (push_ops c buf i) as [o1 b1] eqn:E1; cbn [fst snd].
    destruct (pushes_ops c b1 cs) as [o2 b2] eqn:E2; cbn [fst snd].
    rewrite exec_app, bind_assoc. apply bind_ext. intros [d1 a1]. cbn [fst snd bind].
    rewrite IH, E2, bind_assoc. apply bind_ext. intros [d2 a2]. reflexivity.
  Qed.

  Lemma step_sim c d buf o :
    1 <= c -> length buf <= c ->
    step BD (mkB d buf c) o =
    bind (exec D d (fst (step_ops c buf o))) (fun r => Ret (mkB (fst r) (snd (step_ops c buf o)) c, snd r)).
  Proof.
    intros Hc Hb. destruct o as [x|l|v|q]; cbn [step step_ops].
    - cbn [d_add buffered_digest]. unfold buffered_add. rewrite push_sim, bind_assoc.
      apply bind_ext_returns. intros [d' a] Hr. cbn.
      apply exec_push_nil in Hr; [|apply push_ops_spec]. cbn in Hr. now subst a.
    - cbn [d_add_buffer buffered_digest]. unfold buffered_add_buffer. cbn [b_capacity mkB].
      unfold chunks. destruct c; [lia|]. cbn [bind]. fold (mkB d buf (S c)). rewrite pushes_sim, bind_assoc.
      apply bind_ext_returns. intros [d' a] Hr. cbn [bind fst snd].
      apply exec_push_nil in Hr; [|now apply pushes_ops_spec]. cbn in Hr. now subst a.
    - cbn. unfold buffered_est_q, buffered_flush. cbn. rewrite !bind_assoc. apply bind_ext. intros d'. cbn.
      rewrite !bind_assoc. apply bind_ext. intros [d2 a]. reflexivity.
    - cbn. unfold buffered_est_v, buffered_flush. cbn. rewrite !bind_assoc. apply bind_ext. intros d'. cbn.
      rewrite !bind_assoc. apply bind_ext. intros [d2 a]. reflexivity.
  Qed.

  Lemma step_ops_len c buf o : 1 <= c -> length buf <= c -> length (snd (step_ops c buf o)) <= c.
  Proof.
    intros Hc Hb. destruct o; cbn.
    - apply push_ops_spec.
    - now apply pushes_ops_spec.
    - lia.
    - lia.
  Qed.

  Lemma exec_sim c ops : forall d buf,
    1 <= c -> length buf <= c ->
    exec BD (mkB d buf c) ops =
    bind (exec D d (fst (inner_ops c buf ops))) (fun r => Ret (mkB (fst r) (snd (inner_ops c buf ops)) c, snd r)).
  Proof.
    induction ops as [|o ops IH]; intros d buf Hc Hb; cbn [exec inner_ops]; [reflexivity|].
    rewrite step_sim, bind_assoc by assumption.
    pose proof (@step_ops_len c buf o Hc Hb) as Hl.
    destruct (step_ops c buf o) as [o1 b1]; cbn [fst snd] in *.
    destruct (inner_ops c b1 ops) as [o2 b2] eqn:E; cbn [fst snd].
    rewrite exec_app, bind_assoc. apply bind_ext. intros [d1 a1]. cbn [fst snd bind].
    rewrite IH, E, !bind_assoc by assumption. apply bind_ext. intros [d2 a2]. reflexivity.
  Qed.

  (** the sizes of the batches *)
  Definition big c (o : op F) : Prop := match o with AddBuf b => c < length b <= 2 * c | _ => False end.
  Lemma push_big c buf items : length buf <= c -> length items <= c -> Forall (big c) (fst (push_ops c buf items)).
  Proof.
    intros Hb Hi. unfold push_ops. destruct (Nat.ltb_spec c (length (buf ++ items))); cbn [fst]; [|constructor].
    constructor; [|constructor]. rewrite app_length in *. cbn [big]. rewrite app_length. lia.
  Qed.
  Lemma pushes_big c cs : forall buf, length buf <= c -> Forall (fun i => 1 <= length i <= c) cs -> Forall (big c) (fst (pushes_ops c buf cs)).
  Proof.
    induction cs as [|i cs IH]; intros buf Hb Hc; cbn [pushes_ops]; [constructor|]. apply Forall_cons_iff in Hc as [Hi Hc].
    pose proof (@push_big c buf i Hb ltac:(lia)) as H1. pose proof (push_ops_spec c buf i) as (_ & A2 & _).
    destruct (push_ops c buf i) as [o1 b1]; cbn [fst snd] in *. specialize (IH b1 A2 Hc).
    destruct (pushes_ops c b1 cs) as [o2 b2]; cbn [fst snd] in *. now apply Forall_app.
  Qed.
  Lemma batched_big c o1 o2 : Forall (big c) o1 -> batched c o2 -> batched c (o1 ++ o2).
  Proof. induction 1 as [|o o1 Ho H IH]; intros H2; [exact H2|]. destruct o; cbn in Ho; try tauto. cbn [app]. constructor; auto. Qed.
  Lemma inner_batched c ops : forall buf, 1 <= c -> length buf <= c -> batched c (fst (inner_ops c buf ops)).
  Proof.
    induction ops as [|o ops IH]; intros buf Hc Hb; cbn [inner_ops]; [constructor|].
    destruct o as [x|l|v|q]; cbn [step_ops].
    - pose proof (@push_big c buf [x] Hb ltac:(cbn; lia)) as H1. pose proof (push_ops_spec c buf [x]) as (_ & A2 & _).
      destruct (push_ops c buf [x]) as [o1 b1]; cbn [fst snd] in *. specialize (IH b1 Hc A2).
      destruct (inner_ops c b1 ops) as [o2 b2]; cbn [fst snd] in *. now apply batched_big.
    - pose proof (@pushes_big c (chunks_list c l) buf Hb (chunks_list_bounds l Hc)) as H1.
      pose proof (@pushes_ops_spec c (chunks_list c l) buf Hb) as (_ & A2 & _).
      destruct (pushes_ops c buf (chunks_list c l)) as [o1 b1]; cbn [fst snd] in *. specialize (IH b1 Hc A2).
      destruct (inner_ops c b1 ops) as [o2 b2]; cbn [fst snd] in *. now apply batched_big.
    - specialize (IH [] Hc ltac:(cbn; lia)). destruct (inner_ops c [] ops) as [o2 b2]; cbn [fst snd app] in *. now constructor.
    - specialize (IH [] Hc ltac:(cbn; lia)). destruct (inner_ops c [] ops) as [o2 b2]; cbn [fst snd app] in *. now constructor.
  Qed.

  Theorem buffered_transparent c d ops :
    1 <= c ->
    exists ops' buf',
      exec BD (buffered_new D d c) ops =
        bind (exec D d ops') (fun r => Ret ({| b_digest := fst r; b_buffer := buf'; b_capacity := c |}, snd r))
      /\ items_of ops' ++ buf' = items_of ops
      /\ length buf' <= c
      /\ queries_of [] ops' = queries_of [] ops
      /\ batched c ops'.
  Proof.
    intros Hc. exists (fst (inner_ops c [] ops)), (snd (inner_ops c [] ops)).
    pose proof (@inner_ops_spec c ops [] [] Hc (Nat.le_0_l c)) as (A & B & C).
    pose proof (@inner_batched c ops [] Hc (Nat.le_0_l c)).
    split; [|auto]. apply exec_sim; auto. cbn; lia.
  Qed.

  Theorem buffered_cap0_panics d items buf :
    d_add_buffer BD (mkB d buf 0) items = Panic.
  Proof. reflexivity. Qed.

  (** single-item [add] works for every capacity: exact effect *)
  Lemma buffered_counting ok I c : counting D ok I ->
    counting BD ok (fun s n => b_capacity s = c /\ Forall ok (b_buffer s) /\
                               exists m, I (b_digest s) m /\ n = m + length (b_buffer s)).
  Proof.
    intros HC.
    assert (forall s n items, (b_capacity s = c /\ Forall ok (b_buffer s) /\
                               exists m, I (b_digest s) m /\ n = m + length (b_buffer s)) -> Forall ok items ->
      whenever (fun s => b_capacity s = c /\ Forall ok (b_buffer s) /\
                               exists m, I (b_digest s) m /\ n + length items = m + length (b_buffer s))
        (buffered_push s items)) as Hpush.
    { intros [d buf cc] n items (Hc & Hok & m & HI & ->) Hit. cbn in *. unfold buffered_push; cbn.
      destruct (cc <? length (buf ++ items)).
      - unfold buffered_flush; cbn. eapply whenever_bind.
        + eapply ct_add_buffer; [exact HC|exact HI|]. now apply Forall_app.
        + intros d' HI'. cbn. split; auto. split; auto. eexists. split; [exact HI'|]. rewrite app_length. lia.
      - cbn. split; auto. split; [now apply Forall_app|]. exists m. split; auto. rewrite app_length. lia. }
    assert (forall s n, (b_capacity s = c /\ Forall ok (b_buffer s) /\
                               exists m, I (b_digest s) m /\ n = m + length (b_buffer s)) ->
      whenever (fun s => b_capacity s = c /\ b_buffer s = [] /\ I (b_digest s) n) (buffered_flush s)) as Hflush.
    { intros [d buf cc] n (Hc & Hok & m & HI & ->). cbn in *. unfold buffered_flush; cbn.
      eapply whenever_bind; [eapply ct_add_buffer; eauto|]. intros d' HI'. cbn. auto. }
    constructor.
    - intros s n (Hc & Hok & m & HI & ->). cbn. unfold buffered_count. rewrite (ct_count HC _ _ HI). cbn.
      now rewrite Nat2Z.inj_add.
    - intros s n x H Hx. cbn. unfold buffered_add. apply (Hpush s n [x]); auto.
    - intros s n l H Hl. cbn. unfold buffered_add_buffer.
      destruct H as (Hc & H). unfold chunks. destruct (b_capacity s) as [|c'] eqn:Ec; [exact Logic.I|]. cbn [bind].
      rewrite <- (@chunks_list_concat F (S c') l) in Hl by lia.
      replace (length l) with (length (concat (chunks_list (S c') l))) by (rewrite chunks_list_concat; auto; lia).
      assert (b_capacity s = c /\ Forall ok (b_buffer s) /\ exists m, I (b_digest s) m /\ n = m + length (b_buffer s)) as H'.
      { rewrite Ec; auto. }
      clear H Ec. revert s n H' Hl. generalize (chunks_list (S c') l) as cs.
      induction cs as [|i cs IH]; intros s n H' Hl; cbn.
      + now rewrite Nat.add_0_r.
      + cbn in Hl. apply Forall_app in Hl as [Hi Hl]. eapply whenever_bind; [apply Hpush; eauto|].
        intros s' Hs'. rewrite app_length, Nat.add_assoc. apply IH; auto.
    - intros s n v H. cbn. unfold buffered_est_q. eapply whenever_bind; [apply Hflush; exact H|].
      intros s' (A & B & C). eapply whenever_bind; [eapply ct_est_q; eauto|]. intros [d a] Hd. cbn in *.
      rewrite B. split; auto. split; auto. exists n. split; auto; cbn; lia.
    - intros s n v H. cbn. unfold buffered_est_v. eapply whenever_bind; [apply Hflush; exact H|].
      intros s' (A & B & C). eapply whenever_bind; [eapply ct_est_v; eauto|]. intros [d a] Hd. cbn in *.
      rewrite B. split; auto. split; auto. exists n. split; auto; cbn; lia.
  Qed.
End Buffered.

(** Buffered over Linear: identical answers to the bare reference digest *)
Section BufferedLinear.
  Context {F : Type} {FO : FloatOps F}.
  Notation LD := (linear_digest F).
  Notation BL := (buffered_digest LD).
  Definition flat (s : buffered LD) : list F := b_digest s ++ b_buffer s.

  Lemma push_linear c (s : buffered LD) items : b_capacity s = c ->
    exists s', @buffered_push F LD s items = Ret s' /\ flat s' = flat s ++ items /\ b_capacity s' = c.
  Proof.
    destruct s as [d buf cc]; cbn. intros ->. unfold buffered_push, buffered_flush; cbn.
    destruct (c <? length (buf ++ items)); cbn; eexists; split; try reflexivity; unfold flat; cbn;
      unfold linear_add_buffer; rewrite ?app_nil_r, <- ?app_assoc; auto.
  Qed.

  Lemma pushes_linear c cs : forall (s : buffered LD), b_capacity s = c ->
    exists s', foldM (@buffered_push F LD) s cs = Ret s' /\ flat s' = flat s ++ concat cs /\ b_capacity s' = c.
  Proof.
    induction cs as [|i cs IH]; intros s Hc; cbn.
    - exists s. rewrite app_nil_r. auto.
    - destruct (push_linear s i Hc) as (s1 & -> & H1 & H2). cbn.
      destruct (IH s1 H2) as (s2 & -> & H3 & H4). exists s2. split; auto. split; auto.
      now rewrite H3, H1, app_assoc.
  Qed.

  Lemma step_linear c (s : buffered LD) o : 1 <= c -> b_capacity s = c ->
    bind (step BL s o) (fun r => Ret (flat (fst r), snd r)) = step LD (flat s) o
    /\ whenever (fun r => b_capacity (fst r) = c) (step BL s o).
  Proof.
    intros Hc Hs. destruct o as [x|l|v|q]; cbn [step].
    - cbn. unfold buffered_add. destruct (push_linear s [x] Hs) as (s1 & -> & H1 & H2). cbn. split; auto. now rewrite H1.
    - cbn. unfold buffered_add_buffer, chunks. rewrite Hs. destruct c as [|c]; [lia|]. cbn [bind].
      destruct (pushes_linear (chunks_list (S c) l) s Hs) as (s1 & -> & H1 & H2). cbn. split; auto.
      rewrite H1, chunks_list_concat by lia. reflexivity.
    - cbn. unfold flat; cbn. rewrite app_nil_r. auto.
    - cbn. unfold buffered_est_v, buffered_flush; cbn. rewrite !bind_assoc. fold (flat s).
      change (linear_add_buffer (b_digest s) (b_buffer s)) with (flat s). split.
      + apply bind_ext. intros [s' a]. cbn. unfold flat; cbn. now rewrite app_nil_r.
      + eapply whenever_bind; [apply whenever_true|]. intros [s' a] _. cbn. exact Hs.
  Qed.

  Theorem buffered_linear_same c ops : forall (s : buffered LD), 1 <= c -> b_capacity s = c ->
    bind (exec BL s ops) (fun r => Ret (flat (fst r), snd r)) = exec LD (flat s) ops.
  Proof.
    induction ops as [|o ops IH]; intros s Hc Hs; [reflexivity|].
    destruct (step_linear s o Hc Hs) as [H1 H2].
    assert (exec LD (flat s) (o :: ops) =
            bind (bind (step BL s o) (fun r => Ret (flat (fst r), snd r)))
                 (fun sa => bind (exec LD (fst sa) ops) (fun sb => Ret (fst sb, snd sa ++ snd sb)))) as ->.
    { rewrite H1. cbn [exec]. apply bind_ext. intros [s' a]. apply bind_ext. intros []; reflexivity. }
    cbn [exec]. rewrite !bind_assoc.
    apply bind_ext_returns. intros [s1 a1] Hr. cbn [bind fst snd].
    rewrite whenever_returns in H2. specialize (H2 _ Hr). cbn [fst] in H2.
    rewrite <- (IH s1 Hc H2), !bind_assoc. apply bind_ext. intros [s2 a2]. reflexivity.
  Qed.

  Theorem buffered_linear_answers c ops : 1 <= c ->
    bind (exec BL (buffered_new LD linear_new c) ops) (fun r => Ret (snd r))
    = bind (exec LD linear_new ops) (fun r => Ret (snd r)).
  Proof.
    intros Hc. pose proof (@buffered_linear_same c ops (buffered_new LD linear_new c) Hc eq_refl) as H.
    change (flat (buffered_new LD linear_new c)) with (@linear_new F) in H.
    etransitivity; [|exact (f_equal (fun m => bind m (fun r => Ret (snd r))) H)]. cbv beta.
    rewrite bind_assoc. apply bind_ext. intros [s a]. reflexivity.
  Qed.
End BufferedLinear.
