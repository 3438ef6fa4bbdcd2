(** Accuracy of the wrappers in exact arithmetic: BufferedDigest, MultiDigest, SymDigest and ParallelDigest answer as accurately
    as the digests inside them. *)
From Coq Require Import List Arith ZArith Lia Bool Permutation Reals Lra.
From Verif Require Import Base Floats XReal Digest Spec FloatFacts History LinearProofs WrapProofs MultiSymProofs.
From Verif Require Import TDigestExact TDigestHist TDigestAcc TDigestAcc2 TDigestDrift.
Set Implicit Arguments.
Set Universe Polymorphism.
Unset Universe Minimization ToSet.
Local Open Scope R_scope.

(* ------------------------------------------------------------------ *)
(** * Vocabulary *)

(** finite items and values, quantiles in [0,1], and no query before the first item *)
Definition fine_op (o : op xr) : Prop :=
  match o with
  | Add x => xfinite x
  | AddBuf l => Forall xfinite l
  | Quant v => xfinite v
  | Val q => exists r, q = XFin r /\ 0 <= r <= 1
  end.
Definition fine (ops : list (op xr)) : Prop := Forall fine_op ops /\ Forall (fun p => fst p <> []) (queries_of [] ops).

(** [D], started in [s0], runs through every fine history of at most [lim] items, and then estimates the quantile of a value with
    a rank error of at most [e c q n], where [c] counts the insertion calls, [q] the queries and [n] the items so far *)
Record rank_accurate (D : digest xr) (s0 : dst D) (lim : Z) (e : nat -> nat -> nat -> R) : Prop := {
  ra_runs : forall ops, fine ops -> (Z.of_nat (length (items_of ops)) <= lim)%Z -> always (fun _ => True) (exec D s0 ops);
  ra_rank : forall ops rs v, fine ops -> items_of ops = map XFin rs -> rs <> [] -> (Z.of_nat (length rs) <= lim)%Z ->
    whenever (fun r => exists al a, snd r = al ++ [XFin a] /\
        within rs (e (calls ops) (n_queries ops) (length rs)) (size rs * a) v) (exec D s0 (ops ++ [Quant (XFin v)])) }.

(** the same for the value at a quantile: its rank is [q n] up to the error *)
Definition value_accurate (D : digest xr) (s0 : dst D) (lim : Z) (e : nat -> nat -> nat -> R) : Prop :=
  forall ops rs q, fine ops -> items_of ops = map XFin rs -> rs <> [] -> (Z.of_nat (length rs) <= lim)%Z -> 0 <= q <= 1 ->
    whenever (fun r => exists al x, snd r = al ++ [XFin x] /\
        within rs (e (calls ops) (n_queries ops) (length rs)) (size rs * q) x) (exec D s0 (ops ++ [Val (XFin q)])).

(** count reports the number of items *)
Definition counted (D : digest xr) (s0 : dst D) (lim : Z) : Prop :=
  forall ops, fine ops -> (Z.of_nat (length (items_of ops)) <= lim)%Z ->
    whenever (fun r => d_count D (fst r) = Ret (Z.of_nat (length (items_of ops)))) (exec D s0 ops).

(** more calls do not make the bound smaller *)
Definition grows (e : nat -> nat -> nat -> R) : Prop := forall c c' q q' n, (c <= c')%nat -> (q <= q')%nat -> e c q n <= e c' q' n.

(* ------------------------------------------------------------------ *)
(** * Histories *)

Lemma queries_of_app {F} (a b : list (op F)) : forall pre, queries_of pre (a ++ b) = queries_of pre a ++ queries_of (pre ++ items_of a) b.
Proof.
  induction a as [|o a IH]; intros pre; [cbn; now rewrite app_nil_r|]. destruct o; cbn [app queries_of items_of]; rewrite IH, <- ?app_assoc; reflexivity.
Qed.
Lemma n_queries_app {F} (a b : list (op F)) : n_queries (a ++ b) = (n_queries a + n_queries b)%nat.
Proof. induction a as [|[| | |] a IH]; cbn [app n_queries]; rewrite ?IH; reflexivity. Qed.
Lemma n_queries_of {F} (ops : list (op F)) : forall pre, length (queries_of pre ops) = n_queries ops.
Proof. induction ops as [|[| | |] ops IH]; intros pre; cbn [queries_of n_queries length]; rewrite ?IH; reflexivity. Qed.
Lemma calls_app a b : calls (a ++ b) = (calls a + calls b)%nat.
Proof. unfold calls. now rewrite filter_app, app_length. Qed.

Lemma fine_nil : fine [].
Proof. split; constructor. Qed.
Lemma fine_app_l a b : fine (a ++ b) -> fine a.
Proof. intros [H1 H2]. rewrite queries_of_app in H2. apply Forall_app in H1 as [H1 _]. apply Forall_app in H2 as [H2 _]. now split. Qed.
Lemma fine_insert ops o : fine ops -> fine_op o -> is_query o = false -> fine (ops ++ [o]).
Proof.
  intros [H1 H2] Ho Hq. split; [apply Forall_app; auto|]. rewrite queries_of_app. apply Forall_app. split; [exact H2|]. destruct o; try discriminate; constructor.
Qed.
Lemma fine_ask ops o : fine ops -> fine_op o -> items_of ops <> [] -> fine (ops ++ [o]).
Proof.
  intros [H1 H2] Ho Hq. split; [apply Forall_app; auto|]. rewrite queries_of_app. apply Forall_app. split; [exact H2|].
  destruct o; cbn [queries_of app]; repeat constructor; exact Hq.
Qed.
Lemma fine_items ops : fine ops -> exists rs, items_of ops = map XFin rs.
Proof.
  intros [H _]. apply finite_map. clear -H. induction H as [|o ops Ho H IH]; [constructor|]. destruct o; cbn in *; auto. now apply Forall_app.
Qed.
Lemma fine_last_query ops o : fine (ops ++ [o]) -> is_query o = true -> items_of ops <> [].
Proof.
  intros [_ H] Hq. rewrite queries_of_app in H. apply Forall_app in H as [_ H]. destruct o; try discriminate; cbn in H; now inversion H.
Qed.

Lemma always_and_returns {A} (P : A -> Prop) (m : M A) : always P m -> always (fun a => P a /\ returns m a) m.
Proof. induction m as [a| | |k IH]; simpl; intros H; auto. intros b. eapply always_mono; [exact (IH b (H b))|]. intros a [? ?]. eauto. Qed.

Section After.
  Variables (D : digest xr) (s0 : dst D) (lim : Z) (e : nat -> nat -> nat -> R).
  Hypothesis H : rank_accurate D s0 lim e.

  Lemma returns_snoc ops o s al s' al' : returns (exec D s0 ops) (s, al) -> returns (step D s o) (s', al') ->
    returns (exec D s0 (ops ++ [o])) (s', al ++ al').
  Proof.
    intros H1 H2. rewrite exec_app. eapply returns_bind; [exact H1|]. cbn [fst snd]. apply returns_bind with (a := (s', al')); [|reflexivity].
    cbn [exec]. eapply returns_bind; [exact H2|]. cbn. now rewrite app_nil_r.
  Qed.
  Lemma always_snoc (P : dst D * list xr -> Prop) ops o s al : always P (exec D s0 (ops ++ [o])) -> returns (exec D s0 ops) (s, al) ->
    always (fun r => P (fst r, al ++ snd r)) (step D s o).
  Proof.
    rewrite exec_app, always_bind_iff. intros H1 H2. pose proof (@always_returns _ _ _ _ H1 H2) as H3. cbn [fst snd] in H3.
    rewrite always_bind_iff in H3. cbn [exec] in H3. rewrite always_bind_iff in H3. eapply always_mono; [exact H3|].
    intros [s' b]. cbn. now rewrite app_nil_r.
  Qed.
  Lemma step_runs ops o s al : fine (ops ++ [o]) -> (Z.of_nat (length (items_of (ops ++ [o]))) <= lim)%Z -> returns (exec D s0 ops) (s, al) ->
    always (fun _ => True) (step D s o).
  Proof. intros H1 H2 H3. exact (@always_snoc (fun _ => True) _ _ _ _ (ra_runs H H1 H2) H3). Qed.
  Lemma step_rank ops rs v s al : fine ops -> items_of ops = map XFin rs -> rs <> [] -> (Z.of_nat (length rs) <= lim)%Z -> returns (exec D s0 ops) (s, al) ->
    always (fun r => exists a, snd r = XFin a /\ within rs (e (calls ops) (n_queries ops) (length rs)) (size rs * a) v) (d_est_q D s (XFin v)).
  Proof.
    intros H1 H2 H3 H4 H5. assert (fine (ops ++ [Quant (XFin v)])) as Hf.
    { apply fine_ask; [exact H1|eexists; reflexivity|]. rewrite H2. destruct rs; [congruence|discriminate]. }
    pose proof (ra_rank H v H1 H2 H3 H4) as HR.
    assert ((Z.of_nat (length (items_of (ops ++ [Quant (XFin v)]))) <= lim)%Z) as HL.
    { rewrite items_of_app. cbn. rewrite app_nil_r, H2, map_length. exact H4. }
    pose proof (@always_whenever_and _ _ _ _ (ra_runs H Hf HL) HR) as HA. pose proof (@always_snoc _ _ _ _ _ HA H5) as HB. cbn [step] in HB.
    rewrite always_bind_iff in HB. eapply always_mono; [exact HB|]. intros [s' a] [_ (bl & x & E & Hx)]. cbn in *.
    exists x. split; [|exact Hx]. now apply app_inj_tail in E.
  Qed.
End After.

(* ------------------------------------------------------------------ *)
(** * Ranks *)

Lemma below_upto_mirror v l : below v (map Ropp l) = size l - upto (- v) l /\ upto v (map Ropp l) = size l - below (- v) l.
Proof.
  unfold below, upto. induction l as [|a l [I1 I2]]; [cbn; lra|]. cbn [map filter].
  destruct (Rlt_dec (- a) v), (Rle_dec (- a) v), (Rlt_dec a (- v)), (Rle_dec a (- v)); try lra; cbn [length]; rewrite ?S_INR, ?I1, ?I2; lra.
Qed.
Lemma within_mirror rs e t v : within (map Ropp rs) e t (- v) -> within rs e (size rs - t) v.
Proof. unfold within. destruct (below_upto_mirror (- v) rs) as [-> ->]. rewrite Ropp_involutive. lra. Qed.
Lemma below_mono l x y : x <= y -> below x l <= below y l.
Proof.
  intros Hxy. unfold below. apply le_INR. induction l as [|a l IH]; [cbn; lia|]. cbn [filter].
  destruct (Rlt_dec a x), (Rlt_dec a y); cbn [length]; try lia. lra.
Qed.
Lemma upto_mono l x y : x <= y -> upto x l <= upto y l.
Proof.
  intros Hxy. unfold upto. apply le_INR. induction l as [|a l IH]; [cbn; lia|]. cbn [filter].
  destruct (Rle_dec a x), (Rle_dec a y); cbn [length]; try lia. lra.
Qed.
Lemma within_wider rs e e' t v : e <= e' -> within rs e t v -> within rs e' t v.
Proof. unfold within. lra. Qed.

(* ------------------------------------------------------------------ *)
(** * BufferedDigest *)

Lemma batched_calls c (ops : list (op xr)) : (1 <= c)%nat -> batched c ops ->
  (calls ops * (c + 1) <= length (items_of ops) + n_queries ops * (c + 1))%nat.
Proof.
  intros Hc. unfold calls. induction 1 as [|b ops Hb _ IH|b v ops Hb _ IH|b q ops Hb _ IH]; cbn [filter length items_of n_queries]; rewrite ?app_length; nia.
Qed.

Section Buffered.
  Variables (D : digest xr) (d : dst D) (c : nat) (lim : Z) (e : nat -> nat -> nat -> R).
  Hypotheses (Hc : (1 <= c)%nat) (H : rank_accurate D d lim e) (Hg : grows e).
  Notation BD := (buffered_digest D).

  (** the inner digest's deliveries: full batches and one flush per query *)
  Definition buffered_error (k q n : nat) : R := e (n / (c + 1) + q + 1) q n.

  Lemma batched_push ops (buf' : list xr) : batched c ops -> (calls (ops ++ [AddBuf buf']) <= length (items_of ops) / (c + 1) + n_queries ops + 1)%nat.
  Proof.
    intros Hb. rewrite calls_app. change (calls [AddBuf buf']) with 1%nat.
    pose proof (@batched_calls _ _ Hc Hb) as B.
    assert (calls ops - n_queries ops <= length (items_of ops) / (c + 1))%nat; [|lia].
    apply Nat.div_le_lower_bound; [lia|]. rewrite Nat.mul_comm, Nat.mul_sub_distr_r. lia.
  Qed.

  Lemma inner_history ops : fine ops ->
    exists ops' buf', exec BD (buffered_new D d c) ops =
        bind (exec D d ops') (fun r => Ret ({| b_digest := fst r; b_buffer := buf'; b_capacity := c |}, snd r)) /\
      fine (ops' ++ [AddBuf buf']) /\ items_of (ops' ++ [AddBuf buf']) = items_of ops /\
      n_queries ops' = n_queries ops /\ (calls (ops' ++ [AddBuf buf']) <= length (items_of ops) / (c + 1) + n_queries ops + 1)%nat.
  Proof.
    intros Hf. destruct (@buffered_transparent xr D c d ops Hc) as (ops' & buf' & E & Hi & _ & Hq & Hb).
    exists ops', buf'. split; [exact E|].
    assert (items_of (ops' ++ [AddBuf buf']) = items_of ops) as Hit by (rewrite items_of_app; cbn; now rewrite app_nil_r).
    assert (Forall xfinite (items_of ops' ++ buf')) as Hx.
    { rewrite Hi. destruct (fine_items Hf) as [rs ->]. apply Forall_forall. intros x Hx. apply in_map_iff in Hx as (y & <- & _). now exists y. }
    apply Forall_app in Hx as [Hx1 Hx2].
    assert (n_queries ops' = n_queries ops) as Hn by (rewrite <- (n_queries_of ops' []), <- (n_queries_of ops []), Hq; reflexivity).
    split; [|split; [exact Hit|split; [exact Hn|]]].
    - apply fine_insert; [|exact Hx2|reflexivity]. split; [|rewrite Hq; apply Hf].
      assert (forall p, In p (queries_of [] ops') -> match snd p with QQuant v => fine_op (Quant v) | QVal q => fine_op (Val q) end) as Hqs.
      { rewrite Hq. destruct Hf as [Hf _]. clear -Hf. generalize (@nil xr). induction Hf as [|o ops Ho Hf IH]; intros pre p Hp; [cbn in Hp; contradiction|].
        destruct o; cbn [queries_of] in Hp; [exact (IH _ p Hp)|exact (IH _ p Hp)| |]; (destruct Hp as [<-|Hp]; [exact Ho|exact (IH _ p Hp)]). }
      clear -Hx1 Hqs. revert Hqs. generalize (@nil xr). induction ops' as [|o ops IH]; intros pre Hqs; [constructor|].
      assert (Forall fine_op ops) as HF.
      { destruct o; cbn [queries_of items_of] in *.
        - inversion Hx1; subst. refine (IH _ _ Hqs). assumption.
        - apply Forall_app in Hx1 as [_ Hx]. exact (IH Hx _ Hqs).
        - refine (IH Hx1 pre _). intros p Hp. apply (Hqs p). right. exact Hp.
        - refine (IH Hx1 pre _). intros p Hp. apply (Hqs p). right. exact Hp. }
      constructor; [|exact HF]. destruct o; cbn [items_of queries_of] in *.
      + now inversion Hx1.
      + now apply Forall_app in Hx1 as [? _].
      + exact (Hqs (pre, QQuant v) (or_introl eq_refl)).
      + exact (Hqs (pre, QVal q) (or_introl eq_refl)).
    - pose proof (@batched_push ops' buf' Hb) as B. rewrite <- Hit, items_of_app, app_length. cbn [items_of]. rewrite app_nil_r.
      eapply Nat.le_trans; [exact B|]. rewrite Hn. apply Nat.add_le_mono_r, Nat.add_le_mono_r, Nat.div_le_mono; lia.
  Qed.

  Lemma buffered_runs ops : fine ops -> (Z.of_nat (length (items_of ops)) <= lim)%Z -> always (fun _ => True) (exec BD (buffered_new D d c) ops).
  Proof.
    intros Hf Hl. destruct (inner_history Hf) as (ops' & buf' & E & Hf' & Hi & _). rewrite E. apply always_bind with (P := fun _ => True); [|intros; exact I].
    apply (ra_runs H); [exact (fine_app_l _ _ Hf')|]. rewrite <- Hi, items_of_app, app_length in Hl. lia.
  Qed.

  Lemma buffered_ask ops o : fine ops -> is_query o = true ->
    exists ops', fine ops' /\ items_of ops' = items_of ops /\ n_queries ops' = n_queries ops /\
      (calls ops' <= length (items_of ops) / (c + 1) + n_queries ops + 1)%nat /\
      forall P, whenever (fun r => P (snd r)) (exec D d (ops' ++ [o])) -> whenever (fun r => P (snd r)) (exec BD (buffered_new D d c) (ops ++ [o])).
  Proof.
    intros Hf Hq. destruct (inner_history Hf) as (ops' & buf' & E & Hf' & Hi & Hn & Hcl).
    exists (ops' ++ [AddBuf buf']). split; [exact Hf'|]. split; [exact Hi|].
    split; [rewrite n_queries_app, Hn; cbn; lia|]. split; [exact Hcl|].
    intros P HP. rewrite exec_app. rewrite <- app_assoc, exec_app in HP.
    apply whenever_returns. intros r Hr. apply returns_bind_inv in Hr as ([sb al] & Hr1 & Hr2).
    pose proof (eq_ind _ (fun m => returns m (sb, al)) Hr1 _ E) as Hr0. cbn beta in Hr0. clear Hr1.
    apply returns_bind_inv in Hr0 as ([s al1] & Hr1 & Hr0). cbn [fst snd returns] in Hr0. injection Hr0 as <- <-. rename al1 into al. cbn [fst snd] in Hr2.
    apply returns_bind_inv in Hr2 as ([s' b] & Hr2 & Hr3). cbn in Hr3. subst r. cbn [fst snd].
    cbn [exec] in Hr2. apply returns_bind_inv in Hr2 as ([s1 b1] & Hr2 & Hr3). cbn in Hr3. injection Hr3 as -> Eb. rewrite app_nil_r in Eb. subst b1.
    rewrite whenever_returns in HP.
    assert (exists s'', returns (exec D d ops') (s, al) /\ returns (exec D s ([AddBuf buf'] ++ [o])) (s'', b)) as (s'' & H1 & H2).
    { destruct o; try discriminate; cbn [step d_est_q d_est_v buffered_digest] in Hr2; unfold buffered_est_q, buffered_est_v, buffered_flush in Hr2;
        cbn [b_digest b_buffer b_capacity] in Hr2; rewrite !bind_assoc in Hr2;
        apply returns_bind_inv in Hr2 as (d1 & A1 & A2); cbn [bind b_digest b_buffer b_capacity] in A2; rewrite !bind_assoc in A2;
        apply returns_bind_inv in A2 as ([d2 a] & A2 & A3); cbn in A3; injection A3 as E1 E2; subst b; exists d2; split; try exact Hr1;
        cbn [app exec step]; rewrite !bind_assoc; eapply returns_bind; try exact A1; cbn [bind]; rewrite !bind_assoc; eapply returns_bind; [exact A2|reflexivity|exact A2|reflexivity]. }
    apply (HP (s'', al ++ b)). apply returns_bind with (a := (s, al)); [exact H1|]. cbn [fst snd]. apply returns_bind with (a := (s'', b)); [exact H2|reflexivity].
  Qed.

  Theorem buffered_rank : rank_accurate BD (buffered_new D d c) lim buffered_error.
  Proof.
    split; [exact buffered_runs|]. intros ops rs v Hf Hits Hne Hl.
    destruct (@buffered_ask ops (Quant (XFin v)) Hf eq_refl) as (ops' & Hf' & Hi & Hn & Hcl & HP).
    refine (HP (fun l => exists al a, l = al ++ [XFin a] /\ within rs _ (size rs * a) v) _).
    rewrite Hits in Hi. rewrite Hits, map_length in Hcl. eapply whenever_mono; [exact (ra_rank H v Hf' Hi Hne Hl)|].
    intros r (al & a & E & Hw). exists al, a. split; [exact E|]. refine (within_wider _ Hw). unfold buffered_error. rewrite Hn. now apply Hg.
  Qed.
  Theorem buffered_value : value_accurate D d lim e -> value_accurate BD (buffered_new D d c) lim buffered_error.
  Proof.
    intros HV ops rs q Hf Hits Hne Hl Hq.
    destruct (@buffered_ask ops (Val (XFin q)) Hf eq_refl) as (ops' & Hf' & Hi & Hn & Hcl & HP).
    refine (HP (fun l => exists al x, l = al ++ [XFin x] /\ within rs _ (size rs * q) x) _).
    rewrite Hits in Hi. rewrite Hits, map_length in Hcl. eapply whenever_mono; [exact (HV _ _ q Hf' Hi Hne Hl Hq)|].
    intros r (al & a & E & Hw). exists al, a. split; [exact E|]. refine (within_wider _ Hw). unfold buffered_error. rewrite Hn. now apply Hg.
  Qed.
End Buffered.

(* ------------------------------------------------------------------ *)
(** * MultiDigest *)

Lemma meanF_finite (l : list R) : l <> [] -> meanF (map XFin l) = XFin (sumR l / size l).
Proof.
  intros Hne. unfold meanF. assert (forall a, fold_left fadd (map XFin l) (XFin a) = XFin (a + sumR l)) as Hs.
  { clear Hne. induction l as [|x l IH]; intros a; cbn [map fold_left sumR fold_right]; [now rewrite Rplus_0_r|].
    change (fadd (XFin a) (XFin x)) with (XFin (a + x)). rewrite IH. f_equal. unfold sumR. lra. }
  change (@f0 xr _) with (XFin 0). rewrite Hs, Rplus_0_l, map_length. unfold fof_nat. change (@fofZ xr _) with (fun z => XFin (IZR z)).
  cbn beta. rewrite <- INR_IZR_INZ. rewrite xdiv_fin; [reflexivity|]. intros E.
  destruct l; [congruence|]. cbn [length] in E. rewrite S_INR in E. pose proof (pos_INR (length l)). lra.
Qed.

Lemma sumR_Forall2 {A} (f g : A -> R) (P : R -> A -> Prop) (l : list R) (m : list A) (k : R) :
  (forall x a, P x a -> f a <= k * x <= g a) -> Forall2 P l m -> sumR (map f m) <= k * sumR l <= sumR (map g m).
Proof. intros H. unfold sumR. induction 1 as [|x a l m Hx _ IH]; cbn [map fold_right]; [lra|]. pose proof (H _ _ Hx). lra. Qed.
Lemma sumR_const {A} (f : A -> R) (m : list A) (k : R) : sumR (map (fun a => k + f a) m) = size m * k + sumR (map f m).
Proof. unfold sumR. induction m as [|a m IH]; [cbn; lra|]. cbn [map fold_right length]. rewrite IH, S_INR. lra. Qed.
Lemma mean_between (l : list R) (a b : R) : l <> [] -> (forall x, In x l -> a <= x <= b) -> a <= sumR l / size l <= b.
Proof.
  intros Hne H. assert (0 < size l) as Hp by (apply lt_0_INR; destruct l; [congruence|cbn; lia]).
  assert (size l * a <= sumR l <= size l * b) as [H1 H2].
  { clear Hne Hp. unfold sumR. induction l as [|x l IH]; [cbn; lra|]. cbn [fold_right length]. rewrite S_INR.
    pose proof (H x (or_introl eq_refl)). assert (forall x, In x l -> a <= x <= b) as H' by (intros; apply H; now right). pose proof (IH H'). lra. }
  split; [apply Rmult_le_reg_r with (size l); [exact Hp|]|apply Rmult_le_reg_r with (size l); [exact Hp|]]; unfold Rdiv; rewrite Rmult_assoc, Rinv_l by lra; lra.
Qed.
Lemma extremes (l : list R) : l <> [] -> exists a b, In a l /\ In b l /\ forall x, In x l -> a <= x <= b.
Proof.
  induction l as [|x l IH]; [congruence|]. intros _. destruct l as [|y l]; [exists x, x; split; [now left|split; [now left|]]; intros z [->|[]]; lra|].
  destruct IH as (a & b & Ha & Hb & H); [discriminate|]. exists (Rmin x a), (Rmax x b). split; [|split].
  - unfold Rmin. destruct (Rle_dec x a); [now left|now right].
  - unfold Rmax. destruct (Rle_dec x b); [now right|now left].
  - pose proof (Rmin_l x a). pose proof (Rmin_r x a). pose proof (Rmax_l x b). pose proof (Rmax_r x b).
    intros z [<-|Hz]; [lra|]. pose proof (H z Hz). lra.
Qed.

Section Multi.
  Variables (ds : list (boxed xr)) (lim : Z).
  Hypothesis Hne : ds <> [].
  Notation MD := (multi_digest xr).

  (** the mean of the members' bounds *)
  Definition mean_error (es : list (nat -> nat -> nat -> R)) (c q n : nat) : R := sumR (map (fun e => e c q n) es) / size es.

  (** the last answer of a MultiDigest is the mean of the members' last answers *)
  Lemma multi_last ops o {A} (W : A -> boxed xr -> R -> Prop) (es : list A) : is_query o = true ->
    Forall2 (fun b e => whenever (fun r => exists al a, snd r = al ++ [XFin a] /\ W e b a) (exec (bx_impl b) (bx_state b) (ops ++ [o]))) ds es ->
    whenever (fun r => exists al xs, snd r = al ++ [XFin (sumR xs / size xs)] /\ xs <> [] /\
                 Forall2 (fun x p => W (snd p) (fst p) x) xs (combine ds es)) (exec MD ds (ops ++ [o])).
  Proof.
    intros Hq HW. eapply whenever_mono; [apply multi_forwards|]. intros r (outs & Ho & _ & Hlen & Hr).
    assert (n_queries (ops ++ [o]) = S (n_queries ops)) as Hn.
    { rewrite n_queries_app. destruct o; try discriminate; cbn; lia. }
    rewrite Hn in *. rewrite seq_S, map_app in Hr. cbn [map] in Hr.
    assert (exists xs, map (fun out => nth (n_queries ops) (snd out) f0) outs = map XFin xs /\ Forall2 (fun x p => W (snd p) (fst p) x) xs (combine ds es)) as (xs & Ex & Hx).
    { clear -Ho HW Hlen. revert es HW Hlen. induction Ho as [|b out ds outs Hb Ho IH]; intros es HW Hlen.
      - inversion HW. exists []. split; [reflexivity|constructor].
      - inversion HW as [|? e ? es' H1 H2]; subst. inversion Hlen as [|? ? L1 L2]; subst. destruct (IH _ H2 L2) as (xs & E & Hx).
        destruct Hb as (s' & _ & Hret). rewrite whenever_returns in H1. destruct (H1 _ Hret) as (al & a & Ea & Hw). cbn [snd] in Ea.
        exists (a :: xs). split; [|constructor; [exact Hw|exact Hx]]. cbn [map]. rewrite E. f_equal. rewrite Ea in L1 |- *.
        rewrite app_length in L1. cbn in L1. rewrite app_nth2 by lia. replace (n_queries ops - length al)%nat with 0%nat by lia. reflexivity. }
    assert (xs <> []) as Hxs.
    { intros ->. destruct outs; [|discriminate]. apply Hne. pose proof (Forall2_len Ho) as L. now destruct ds. }
    rewrite Nat.add_0_l, Ex, (meanF_finite Hxs) in Hr. eexists. exists xs. split; [exact Hr|]. split; [exact Hxs|exact Hx].
  Qed.

  Theorem multi_rank (es : list (nat -> nat -> nat -> R)) : Forall2 (fun b e => rank_accurate (bx_impl b) (bx_state b) lim e) ds es ->
    rank_accurate MD ds lim (mean_error es).
  Proof.
    intros HA. split.
    - intros ops Hf Hl. apply multi_no_new_panic. clear -HA Hf Hl. induction HA as [|b e ds es Hb _ IH]; constructor; [exact (ra_runs Hb Hf Hl)|exact IH].
    - intros ops rs v Hf Hits Hrs Hl.
      eapply whenever_mono; [apply (@multi_last ops (Quant (XFin v)) _ (fun e _ a => within rs (e (calls ops) (n_queries ops) (length rs)) (size rs * a) v) es eq_refl)|].
      + clear -HA Hf Hits Hrs Hl. induction HA as [|b e ds es Hb _ IH]; constructor; [exact (ra_rank Hb v Hf Hits Hrs Hl)|exact IH].
      + intros r (al & xs & E & Hxs & HF). exists al, (sumR xs / size xs). split; [exact E|].
        assert (Forall2 (fun x e => within rs (e (calls ops) (n_queries ops) (length rs)) (size rs * x) v) xs es) as HF2.
        { apply Forall2_len in HA. clear -HA HF. revert es xs HA HF. induction ds as [|b l IH]; intros [|e es] xs HA HF; try discriminate; cbn in HF; inversion HF; subst; constructor; auto. }
        pose proof (Forall2_len HF2) as HL.
        assert (0 < size xs) as Hp by (apply lt_0_INR; destruct xs; [congruence|cbn; lia]).
        destruct (@sumR_Forall2 _ (fun e => below v rs + - e (calls ops) (n_queries ops) (length rs)) (fun e => upto v rs + e (calls ops) (n_queries ops) (length rs))
           _ xs es (size rs) (fun x e (Hw : within rs (e (calls ops) (n_queries ops) (length rs)) (size rs * x) v) => ltac:(unfold within in Hw; lra)) HF2) as [S1 S2].
        rewrite sumR_const in S1, S2. rewrite <- HL in S1, S2.
        assert (sumR (map (fun e : nat -> nat -> nat -> R => - e (calls ops) (n_queries ops) (length rs)) es) =
                - sumR (map (fun e => e (calls ops) (n_queries ops) (length rs)) es)) as En.
        { clear. unfold sumR. induction es as [|e es IH]; cbn [map fold_right]; [lra|]. rewrite IH. lra. }
        rewrite En in S1. unfold within, mean_error. rewrite <- HL.
        assert (forall y, y / size xs * size xs = y) as Hd by (intros; field; lra).
        split; apply Rmult_le_reg_r with (size xs); try exact Hp; rewrite ?Rmult_plus_distr_r, ?Rmult_minus_distr_r, ?Rmult_assoc, ?Hd; lra.
  Qed.

  Theorem multi_value e : Forall (fun b => value_accurate (bx_impl b) (bx_state b) lim e) ds -> value_accurate MD ds lim e.
  Proof.
    intros HA ops rs q Hf Hits Hrs Hl Hq.
    eapply whenever_mono; [apply (@multi_last ops (Val (XFin q)) _ (fun _ _ x => within rs (e (calls ops) (n_queries ops) (length rs)) (size rs * q) x) ds eq_refl)|].
    - clear -HA Hf Hits Hrs Hl Hq. induction HA as [|b ds Hb _ IH]; constructor; [exact (Hb _ _ q Hf Hits Hrs Hl Hq)|exact IH].
    - intros r (al & xs & E & Hxs & HF). exists al, (sumR xs / size xs). split; [exact E|].
      destruct (extremes Hxs) as (a & b & Ha & Hb & Hab). destruct (mean_between Hxs Hab) as [M1 M2].
      assert (forall x, In x xs -> within rs (e (calls ops) (n_queries ops) (length rs)) (size rs * q) x) as HW.
      { intros x Hx. clear -HF Hx. induction HF as [|y p xs m Hy _ IH]; [destruct Hx|]. destruct Hx as [<-|Hx]; auto. }
      pose proof (HW a Ha) as [_ W2]. pose proof (HW b Hb) as [W1 _]. pose proof (below_mono rs M2). pose proof (upto_mono rs M1). unfold within. lra.
  Qed.
End Multi.

(* ------------------------------------------------------------------ *)
(** * SymDigest *)

Lemma fine_mirror ops : fine ops -> fine (map mirror ops).
Proof.
  intros [H1 H2]. split.
  - clear H2. induction H1 as [|o ops Ho _ IH]; constructor; [|exact IH]. destruct o; cbn in *.
    + destruct Ho as [r ->]. now exists (- r).
    + apply Forall_forall. intros y Hy. apply in_map_iff in Hy as (z & <- & Hz). rewrite Forall_forall in Ho. destruct (Ho z Hz) as [r ->]. now exists (- r).
    + destruct Ho as [r ->]. now exists (- r).
    + destruct Ho as (r & -> & Hr). exists (1 - r). split; [|lra]. reflexivity.
  - clear H1. assert (forall pre pre', (pre <> [] -> pre' <> []) -> Forall (fun p => fst p <> []) (queries_of pre ops) -> Forall (fun p => fst p <> []) (queries_of pre' (map mirror ops))) as HG.
    { clear H2. induction ops as [|o ops IH]; intros pre pre' Hp HF; [constructor|]. destruct o; cbn [map mirror queries_of] in *.
      - eapply IH; [|exact HF]. intros _. now destruct pre'.
      - eapply IH; [|exact HF]. intros Hx. destruct pre' as [|y p']; [|discriminate]. destruct pre as [|z pre]; [destruct l; [exfalso; now apply Hx|discriminate]|]. exfalso. now apply Hp.
      - inversion HF as [|? ? F1 F2]; subst. constructor; [apply Hp, F1|eapply IH; [exact Hp|exact F2]].
      - inversion HF as [|? ? F1 F2]; subst. constructor; [apply Hp, F1|eapply IH; [exact Hp|exact F2]]. }
    eapply HG; [|exact H2]. congruence.
Qed.
Lemma calls_mirror ops : calls (map mirror ops) = calls ops.
Proof. unfold calls. induction ops as [|[| | |] ops IH]; cbn [map mirror filter length]; rewrite ?IH; reflexivity. Qed.
Lemma n_queries_mirror (ops : list (op xr)) : n_queries (map mirror ops) = n_queries ops.
Proof. induction ops as [|[| | |] ops IH]; cbn [map mirror n_queries]; rewrite ?IH; reflexivity. Qed.
Lemma mirror_items ops rs : items_of ops = map XFin rs -> items_of (map mirror ops) = map XFin (map Ropp rs).
Proof. intros H. rewrite items_of_mirror, H, !map_map. reflexivity. Qed.

Lemma sym_answers_last (ops : list (op xr)) o al ah a : is_query o = true -> sym_answers (ops ++ [o]) al ah a ->
  exists al' ah' a' l h, al = al' ++ [l] /\ ah = ah' ++ [h] /\ a = a' ++ [sym_combine o l h].
Proof.
  intros Hq. revert al ah a. induction ops as [|o' ops IH]; intros al ah a HS; cbn [app] in HS; inversion HS as [|? ? ? ? ? E HS'|? ? l ? h ? ? E HS']; subst.
  - congruence.
  - inversion HS'; subst. exists [], [], [], l, h. auto.
  - destruct (IH _ _ _ HS') as (al' & ah' & a' & l & h & -> & -> & ->). exists al', ah', a', l, h. auto.
  - destruct (IH _ _ _ HS') as (al' & ah' & a' & l1 & h1 & -> & -> & ->). exists (l :: al'), (h :: ah'), (sym_combine o' l h :: a'), l1, h1. auto.
Qed.

Lemma xsub1 y : fsub f1 (XFin y) = XFin (1 - y).
Proof. reflexivity. Qed.
Lemma combine_avg x y : fdiv (fadd (XFin x) (fsub f1 (XFin y))) f2 = XFin ((x + (1 - y)) / 2).
Proof. rewrite xsub1. change (fadd (XFin x) (XFin (1 - y))) with (XFin (x + (1 - y))). apply xdiv_fin. lra. Qed.

Section Sym.
  Variables (D : digest xr) (l0 h0 : dst D) (lim : Z) (e : nat -> nat -> nat -> R).
  Hypotheses (Hl : rank_accurate D l0 lim e) (Hh : rank_accurate D h0 lim e).
  Notation SD := (sym_digest D).

  Lemma sym_runs ops : fine ops -> (Z.of_nat (length (items_of ops)) <= lim)%Z -> always (fun _ => True) (exec SD (Sym D l0 h0) ops).
  Proof.
    induction ops as [|o ops IH] using rev_ind; intros Hf Hlim; [exact I|].
    assert (Z.of_nat (length (items_of ops)) <= lim)%Z as Hlim0 by (rewrite items_of_app, app_length in Hlim; lia).
    pose proof (fine_app_l _ _ Hf) as Hf0. pose proof (IH Hf0 Hlim0) as HI. rewrite exec_app.
    eapply always_bind; [exact (@always_whenever_and _ _ _ _ HI (@sym_forwards xr _ D ops (Sym D l0 h0)))|]. cbn [low_digest high_digest].
    intros [s a] (_ & al & ah & R1 & R2 & _). cbn [fst snd] in *. apply always_bind with (P := fun _ => True); [|intros; exact I].
    cbn [exec]. apply always_bind with (P := fun _ => True); [|intros [? ?] _; exact I].
    pose proof (@step_runs D l0 lim e Hl ops o _ _ Hf Hlim R1) as S1.
    assert (fine (map mirror ops ++ [mirror o])) as Hfm by (change [mirror o] with (map mirror [o]); rewrite <- map_app; now apply fine_mirror).
    assert (Z.of_nat (length (items_of (map mirror ops ++ [mirror o]))) <= lim)%Z as Hlm.
    { change [mirror o] with (map mirror [o]). rewrite <- map_app, items_of_mirror, map_length. exact Hlim. }
    pose proof (@step_runs D h0 lim e Hh (map mirror ops) (mirror o) _ _ Hfm Hlm R2) as S2.
    assert (Forall fine_op [o]) as Ho by (destruct Hf as [Hf _]; now apply Forall_app in Hf). apply Forall_inv in Ho.
    destruct o as [x|b|v|q]; cbn [step mirror] in *; rewrite always_bind_iff in S1, S2; cbn [d_add d_add_buffer d_est_q d_est_v sym_digest] in *.
    - unfold sym_add. rewrite !bind_assoc. eapply always_bind; [exact S1|]. intros l _. rewrite !bind_assoc. eapply always_bind; [exact S2|]. intros h _. exact I.
    - unfold sym_add_buffer. rewrite !bind_assoc. eapply always_bind; [exact S1|]. intros l _. rewrite !bind_assoc. eapply always_bind; [exact S2|]. intros h _. exact I.
    - destruct Ho as [v0 ->]. destruct (fine_items Hf0) as [rs Hits]. pose proof (@fine_last_query _ _ Hf eq_refl) as Hne0.
      assert (rs <> []) as Hne by (intros ->; rewrite Hits in Hne0; now apply Hne0).
      rewrite Hits, map_length in Hlim0.
      pose proof (@step_rank D l0 lim e Hl ops rs v0 _ _ Hf0 Hits Hne Hlim0 R1) as Q1.
      assert (map Ropp rs <> []) as Hne' by (destruct rs; [congruence|discriminate]).
      assert (Z.of_nat (length (map Ropp rs)) <= lim)%Z as Hlim1 by (rewrite map_length; exact Hlim0).
      pose proof (@step_rank D h0 lim e Hh (map mirror ops) (map Ropp rs) (- v0) _ _ (fine_mirror Hf0) (mirror_items _ _ Hits) Hne' Hlim1 R2) as Q2.
      unfold sym_est_q. rewrite !bind_assoc. eapply always_bind; [exact Q1|]. intros [l el] (a1 & E1 & _). cbn in E1. subst el.
      rewrite !bind_assoc. change (fneg (XFin v0)) with (XFin (- v0)). eapply always_bind; [exact Q2|]. intros [h eh] (a2 & E2 & _). cbn in E2. subst eh.
      rewrite !bind_assoc. apply always_bind with (P := fun _ => True); [|intros; exact I].
      rewrite combine_avg. exact I.
    - destruct Ho as (q0 & -> & Hq). unfold sym_est_v. rewrite !bind_assoc. eapply always_bind; [exact S1|]. intros [l el] _.
      rewrite !bind_assoc. eapply always_bind; [exact S2|]. intros [h eh] _. exact I.
  Qed.

  Lemma sym_last ops o : is_query o = true ->
    whenever (fun r => exists al ah a' l h,
        returns (exec D l0 (ops ++ [o])) (low_digest (fst r), al ++ [l]) /\
        returns (exec D h0 (map mirror ops ++ [mirror o])) (high_digest (fst r), ah ++ [h]) /\ snd r = a' ++ [sym_combine o l h])
      (exec SD (Sym D l0 h0) (ops ++ [o])).
  Proof.
    intros Hq. eapply whenever_mono; [apply sym_forwards|]. intros [s a] (al & ah & R1 & R2 & HS). cbn [fst snd low_digest high_digest] in *.
    apply (@sym_answers_last ops o _ _ _ Hq) in HS as (al' & ah' & a' & l & h & -> & -> & ->). rewrite map_app in R2. cbn [map] in R2.
    exists al', ah', a', l, h. auto.
  Qed.

  Theorem sym_rank : rank_accurate SD (Sym D l0 h0) lim e.
  Proof.
    split; [exact sym_runs|]. intros ops rs v Hf Hits Hne Hlim.
    eapply whenever_mono; [exact (@sym_last ops (Quant (XFin v)) eq_refl)|]. intros [s b] (al & ah & a' & l & h & R1 & R2 & E). cbn [fst snd] in *.
    pose proof (ra_rank Hl v Hf Hits Hne Hlim) as A1. rewrite whenever_returns in A1. destruct (A1 _ R1) as (al1 & x & E1 & W1). cbn [snd] in E1.
    apply app_inj_tail in E1 as [_ ->].
    assert (map Ropp rs <> []) as Hne' by (destruct rs; [congruence|discriminate]).
    assert (Z.of_nat (length (map Ropp rs)) <= lim)%Z as Hlim1 by (rewrite map_length; exact Hlim).
    pose proof (ra_rank Hh (- v) (fine_mirror Hf) (mirror_items _ _ Hits) Hne' Hlim1) as A2. rewrite whenever_returns in A2.
    destruct (A2 _ R2) as (ah1 & y & E2 & W2). cbn [snd] in E2. apply app_inj_tail in E2 as [_ ->].
    rewrite calls_mirror, n_queries_mirror, map_length in W2. apply within_mirror in W2.
    cbn [sym_combine] in E. rewrite combine_avg, xsub1 in E. exists a'.
    unfold within in *. destruct (flt _ _); [exists x; split; [exact E|lra]|]. destruct (fgt _ _); [exists (1 - y); split; [exact E|lra]|].
    exists ((x + (1 - y)) / 2). split; [exact E|lra].
  Qed.

  Theorem sym_value : value_accurate D l0 lim e -> value_accurate D h0 lim e -> value_accurate SD (Sym D l0 h0) lim e.
  Proof.
    intros Vl Vh ops rs q Hf Hits Hne Hlim Hq.
    eapply whenever_mono; [exact (@sym_last ops (Val (XFin q)) eq_refl)|]. intros [s b] (al & ah & a' & l & h & R1 & R2 & E). cbn [fst snd] in *.
    pose proof (Vl _ _ q Hf Hits Hne Hlim Hq) as A1. rewrite whenever_returns in A1. destruct (A1 _ R1) as (al1 & x & E1 & W1). cbn [snd] in E1.
    apply app_inj_tail in E1 as [_ ->].
    assert (map Ropp rs <> []) as Hne' by (destruct rs; [congruence|discriminate]).
    assert (Z.of_nat (length (map Ropp rs)) <= lim)%Z as Hlim1 by (rewrite map_length; exact Hlim).
    assert (0 <= 1 - q <= 1) as Hq' by lra.
    pose proof (Vh _ _ (1 - q) (fine_mirror Hf) (mirror_items _ _ Hits) Hne' Hlim1 Hq') as A2. rewrite whenever_returns in A2.
    destruct (A2 _ R2) as (ah1 & y & E2 & W2). cbn [snd] in E2. apply app_inj_tail in E2 as [_ ->].
    rewrite calls_mirror, n_queries_mirror, map_length in W2. rewrite <- (Ropp_involutive y) in W2. apply within_mirror in W2.
    replace (size rs - size rs * (1 - q)) with (size rs * q) in W2 by ring.
    cbn [sym_combine] in E. change (fneg (XFin y)) with (XFin (- y)) in E. exists a'.
    assert (fdiv (fadd (XFin x) (XFin (- y))) f2 = XFin ((x + - y) / 2)) as Ed.
    { change (fadd (XFin x) (XFin (- y))) with (XFin (x + - y)). apply xdiv_fin. lra. }
    rewrite Ed in E.
    destruct (flt _ _); [exists x; split; [exact E|exact W1]|]. destruct (fgt _ _); [exists (- y); split; [exact E|exact W2]|].
    exists ((x + - y) / 2). split; [exact E|]. unfold within in *. destruct (Rle_dec x (- y)).
    - assert (x <= (x + - y) / 2 <= - y) as [M1 M2] by lra. pose proof (below_mono rs M2). pose proof (upto_mono rs M1). lra.
    - assert (- y <= (x + - y) / 2 <= x) as [M1 M2] by lra. pose proof (below_mono rs M2). pose proof (upto_mono rs M1). lra.
  Qed.
End Sym.
