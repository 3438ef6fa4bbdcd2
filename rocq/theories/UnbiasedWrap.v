(** BufferedDigest and ParallelDigest keep the estimates of the digests inside them unbiased, and ParallelDigest averages out part
    of their randomness. *)
From Coq Require Import List Arith ZArith Lia Bool Permutation Reals Lra.
From Verif Require Import Base Floats XReal Digest Spec FloatFacts History LinearProofs WrapProofs MultiSymProofs ChunkProofs ParallelProofs.
From Verif Require Import TDigestExact TDigestHist TDigestAcc TDigestAcc2 TDigestDrift Accurate AccuratePar Average.
Set Implicit Arguments.
Set Universe Polymorphism.
Unset Universe Minimization ToSet.
Local Open Scope R_scope.

(* ------------------------------------------------------------------ *)
(** * BufferedDigest *)
Section Buffered.
  Variables (D : digest xr) (d : dst D) (c : nat) (lim : Z) (a : list R -> R -> R).
  Hypotheses (Hc : (1 <= c)%nat) (H : unbiased D d lim a).
  Notation BD := (buffered_digest D).

  (** the answers to a history that ends with a quantile query are, coin for coin, those of the inner digest to a history with the same items *)
  Lemma buffered_query ops v : fine ops -> exists ops', fine ops' /\ items_of ops' = items_of ops /\
    bind (exec BD (buffered_new D d c) (ops ++ [Quant v])) (fun r => Ret (snd r)) = bind (exec D d (ops' ++ [Quant v])) (fun r => Ret (snd r)).
  Proof using Hc.
    intros Hf. destruct (@inner_history D d c Hc ops Hf) as (ops' & buf' & E & Hf' & Hi & _).
    exists (ops' ++ [AddBuf buf']). split; [exact Hf'|]. split; [exact Hi|].
    rewrite exec_app'. rewrite (bind_assoc (exec BD _ ops)).
    transitivity (bind (bind (exec D d ops') (fun r => Ret ({| b_digest := fst r; b_buffer := buf'; b_capacity := c |} : dst BD, snd r)))
      (fun r => bind (bind (exec BD (fst r) [Quant v]) (fun r' => Ret (fst r', snd r ++ snd r'))) (fun r => Ret (snd r)))).
    { exact (f_equal (fun m => bind m _) E). }
    rewrite <- app_assoc, exec_app', !bind_assoc. apply bind_ext. intros [s al]. cbn [bind fst snd app exec step d_est_q d_add_buffer buffered_digest].
    unfold buffered_est_q, buffered_flush. cbn [b_digest b_buffer b_capacity]. rewrite !bind_assoc. apply bind_ext. intros s1. cbn [bind b_digest b_buffer b_capacity].
    rewrite !bind_assoc. apply bind_ext. intros [s2 x]. reflexivity.
  Qed.
  Lemma buffered_expect ops v : fine ops -> exists ops', fine ops' /\ items_of ops' = items_of ops /\
    (forall f, expect (fun r => f (last_answer r)) (exec BD (buffered_new D d c) (ops ++ [Quant v])) = expect (fun r => f (last_answer r)) (exec D d (ops' ++ [Quant v]))) /\
    (forall P, always (fun r => P (snd r)) (exec D d (ops' ++ [Quant v])) -> always (fun r => P (snd r)) (exec BD (buffered_new D d c) (ops ++ [Quant v]))).
  Proof using Hc.
    intros Hf. destruct (@buffered_query ops v Hf) as (ops' & Hf' & Hi & E). exists ops'. split; [exact Hf'|]. split; [exact Hi|]. split.
    - intros f. pose proof (f_equal (expect (fun l => f (real (last l fnan)))) E) as E'. rewrite !expect_bind in E'. exact E'.
    - intros P HP.
      assert (always P (bind (exec BD (buffered_new D d c) (ops ++ [Quant v])) (fun r => Ret (snd r)))) as H1.
      { rewrite E. apply always_bind_iff. exact HP. }
      apply always_bind_iff in H1. exact H1.
  Qed.
  Theorem buffered_unbiased : unbiased BD (buffered_new D d c) lim a.
  Proof using H Hc.
    split.
    - intros ops Hf Hl. destruct (@inner_history D d c Hc ops Hf) as (ops' & buf' & E & Hf' & Hi & _). rewrite E.
      apply always_bind with (P := fun _ => True); [|intros; exact I]. apply (ub_runs H); [exact (fine_app_l _ _ Hf')|].
      rewrite <- Hi, items_of_app, app_length in Hl. lia.
    - intros ops rs v Hf Hits Hne Hl. destruct (@buffered_expect ops (XFin v) Hf) as (ops' & Hf' & Hi & _ & HP).
      apply (HP (fun l => exists al x, l = al ++ [XFin x])). rewrite Hits in Hi. exact (ub_finite H v Hf' Hi Hne Hl).
    - intros ops rs v Hf Hits Hne Hl. destruct (@buffered_expect ops (XFin v) Hf) as (ops' & Hf' & Hi & HE & _).
      rewrite Hits in Hi. etransitivity; [exact (HE (fun x => x))|]. exact (ub_mean H v Hf' Hi Hne Hl).
    - intros ops rs v Hf Hits Hne Hl. destruct (@buffered_expect ops (XFin v) Hf) as (ops' & Hf' & Hi & HE & _).
      rewrite Hits in Hi. eapply Rle_trans; [right; exact (HE (fun x => (x - upto v rs / size rs) ^ 2))|]. exact (ub_mse H v Hf' Hi Hne Hl).
  Qed.
End Buffered.

(* ------------------------------------------------------------------ *)
(** * Sums of independent variables with different means *)
Section Sums.
  Context {A B : Type}.
  Variables (p : A -> M B) (val : B -> R) (mu : A -> R).
  Definition centred l := Forall (fun x => always (fun _ => True) (p x) /\ expect val (p x) = mu x) l.
  Lemma sum_mean l : centred l -> always (fun _ => True) (mapM p l) /\ expect (fun ys => sumR (map val ys)) (mapM p l) = sumR (map mu l).
  Proof.
    induction 1 as [|x l [H1 H2] _ [IH1 IH2]]; [split; reflexivity|]. cbn [mapM].
    split; [eapply always_bind; [exact H1|]; intros; eapply always_bind; [exact IH1|]; intros; exact I|].
    rewrite expect_bind. change (sumR (map mu (x :: l))) with (mu x + sumR (map mu l)).
    transitivity (expect (fun y => val y + sumR (map mu l)) (p x)).
    - apply expect_ext. intros y. rewrite expect_bind. cbn [expect map]. change (expect (fun ys => val y + sumR (map val ys)) (mapM p l) = val y + sumR (map mu l)).
      rewrite expect_plus, IH2, expect_const by exact IH1. reflexivity.
    - rewrite expect_plus, expect_const by exact H1. now rewrite H2.
  Qed.
  Lemma sum_var l : centred l ->
    expect (fun ys => (sumR (map val ys) - sumR (map mu l)) ^ 2) (mapM p l) = sumR (map (fun x => expect (fun y => (val y - mu x) ^ 2) (p x)) l).
  Proof.
    induction 1 as [|x l [H1 H2] Hl IH]; [cbn; lra|]. destruct (sum_mean Hl) as [M1 M2]. cbn [mapM map]. rewrite expect_bind.
    transitivity (expect (fun y => (val y - mu x) ^ 2 + sumR (map (fun x => expect (fun y => (val y - mu x) ^ 2) (p x)) l)) (p x)).
    - apply expect_ext. intros y. rewrite expect_bind. cbn [expect map].
      transitivity (expect (fun ys => ((val y - mu x) ^ 2 - 2 * (val y - mu x) * sumR (map mu l) + 2 * (val y - mu x) * sumR (map val ys)) + (sumR (map val ys) - sumR (map mu l)) ^ 2) (mapM p l)).
      + apply expect_ext. intros ys. change (sumR (val y :: map val ys)) with (val y + sumR (map val ys)). change (sumR (mu x :: map mu l)) with (mu x + sumR (map mu l)). ring.
      + rewrite expect_plus, expect_plus, expect_scal, M2, IH, expect_const by exact M1. lra.
    - rewrite expect_plus, expect_const by exact H1. reflexivity.
  Qed.
End Sums.

(* ------------------------------------------------------------------ *)
(** * ParallelDigest *)
#[local] Existing Instance FLx.
Section Par.
  Variables (D : digest xr) (lim : Z) (a : list R -> R -> R) (ds0 : list (dst D)).
  Hypotheses (Hlim : (lim < 2 ^ 53)%Z) (Hds : ds0 <> []) (Hlen : (Z.of_nat (length ds0) < 2 ^ 53)%Z).
  Hypothesis Hub : Forall (fun d => unbiased D d lim a /\ counted D d lim) ds0.
  Notation PD := (parallel_digest D).

  (** a member's start, the chunks it got and the quantile queries it was asked *)
  Notation part := (dst D * list (list R + R))%type.
  Definition chunk_of (e : list R + R) : list R := match e with inl l => l | inr _ => [] end.
  Definition op_of (e : list R + R) : op xr := match e with inl l => AddBuf (map XFin l) | inr v => Quant (XFin v) end.
  Definition got (p : part) : list R := concat (map chunk_of (snd p)).
  Definition told (p : part) : list (op xr) := map op_of (snd p).
  Definition mrun (p : part) : M (dst D) := bind (exec D (fst p) (told p)) (fun r => Ret (fst r)).
  Definition all_got (ps : list part) : list R := concat (map got ps).

  Lemma told_items p : items_of (told p) = map XFin (got p).
  Proof.
    unfold told, got. induction (snd p) as [|[l|v] ls IH]; [reflexivity| |]; cbn [map items_of concat op_of chunk_of]; [now rewrite map_app, IH|exact IH].
  Qed.
  Definition more (p : part) (l : list R) : part := (fst p, snd p ++ [inl l]).
  Definition ask (v : R) (p : part) : part := (fst p, snd p ++ [inr v]).
  Lemma more_got p l : got (more p l) = got p ++ l.
  Proof. unfold got, more. cbn [snd]. rewrite map_app, concat_app. cbn. now rewrite app_nil_r. Qed.
  Lemma ask_got v p : got (ask v p) = got p.
  Proof. unfold got, ask. cbn [snd]. rewrite map_app, concat_app. cbn. now rewrite app_nil_r. Qed.
  Lemma told_more p l : told (more p l) = told p ++ [AddBuf (map XFin l)].
  Proof. unfold told, more. cbn [snd]. now rewrite map_app. Qed.
  Lemma told_ask v p : told (ask v p) = told p ++ [Quant (XFin v)].
  Proof. unfold told, ask. cbn [snd]. now rewrite map_app. Qed.
  Lemma more_fine p l : fine (told p) -> fine (told (more p l)).
  Proof.
    intros [H1 H2]. rewrite told_more. split.
    - apply Forall_app. split; [exact H1|]. repeat constructor. cbn. apply Forall_forall. intros x Hx. apply in_map_iff in Hx as (y & <- & _). now exists y.
    - rewrite queries_of_app. apply Forall_app. split; [exact H2|constructor].
  Qed.
  Lemma ask_fine p v : fine (told p) -> got p <> [] -> fine (told p ++ [Quant (XFin v)]).
  Proof.
    intros [H1 H2] Hne. split; [apply Forall_app; split; [exact H1|repeat constructor; now exists v]|].
    rewrite queries_of_app. apply Forall_app. split; [exact H2|]. cbn [queries_of]. repeat constructor. cbn [fst app]. rewrite told_items. intros E. apply map_eq_nil in E. contradiction.
  Qed.
  Lemma mrun_more p l : mrun (more p l) = bind (mrun p) (fun d => d_add_buffer D d (map XFin l)).
  Proof.
    unfold mrun. rewrite told_more, exec_app', !bind_assoc. apply bind_ext. intros [s al]. cbn [bind fst snd map exec step].
    rewrite !bind_assoc. cbn [bind]. rewrite <- (bind_ret (d_add_buffer D s (map XFin l))) at 2. apply bind_ext. intros d. reflexivity.
  Qed.
  Lemma mrun_ask p v : mrun (ask v p) = bind (mrun p) (fun d => bind (d_est_q D d (XFin v)) (fun r => Ret (fst r))).
  Proof.
    unfold mrun. rewrite told_ask, exec_app', !bind_assoc. apply bind_ext. intros [s al]. cbn [bind fst snd map exec step].
    rewrite !bind_assoc. apply bind_ext. intros [d x]. reflexivity.
  Qed.
  Fixpoint extend (ps : list part) (css : list (list R)) : list part :=
    match ps, css with p :: ps', c :: css' => more p c :: extend ps' css' | _, _ => ps end.

  Lemma zip_nil ds : zip_add D ds [] = Ret ds.
  Proof. now destruct ds. Qed.
  Lemma zip_expect ps : forall css (h : list (dst D) -> R),
    expect (fun ds => expect h (zip_add D ds (map (map XFin) css))) (mapM mrun ps) = expect h (mapM mrun (extend ps css)).
  Proof.
    induction ps as [|p ps IH]; intros css h; [reflexivity|]. destruct css as [|c css].
    - cbn [map extend]. apply expect_ext. intros ds. now rewrite zip_nil.
    - cbn [map extend mapM]. rewrite !expect_bind, mrun_more, expect_bind. apply expect_ext. intros d. rewrite expect_bind. cbn [expect].
      transitivity (expect (fun ds => expect (fun d' => expect (fun r => h (d' :: r)) (zip_add D ds (map (map XFin) css))) (d_add_buffer D d (map XFin c))) (mapM mrun ps)).
      + apply expect_ext. intros ds. cbn [zip_add]. rewrite expect_bind. apply expect_ext. intros d'. rewrite expect_bind. reflexivity.
      + rewrite expect_swap. apply expect_ext. intros d'. rewrite expect_bind. cbn [expect]. apply (IH css (fun r => h (d' :: r))).
  Qed.

  Definition at_ (p : part) (d : dst D) : Prop := returns (mrun p) d.
  Definition okp (p : part) : Prop := (unbiased D (fst p) lim a /\ counted D (fst p) lim) /\ fine (told p).

  Lemma mrun_always p : okp p -> (Z.of_nat (length (got p)) <= lim)%Z -> always (fun _ => True) (mrun p).
  Proof.
    intros [[U _] Hfi] Hl. unfold mrun. eapply always_bind; [apply (ub_runs U); [exact Hfi|]|intros; exact I]. rewrite told_items, map_length. exact Hl.
  Qed.
  Lemma extend_all ps : forall css, (length css <= length ps)%nat -> Permutation (all_got ps ++ concat css) (all_got (extend ps css)).
  Proof.
    unfold all_got. induction ps as [|p ps IH]; intros [|c css] Hl; cbn [length] in Hl; try lia; cbn [extend concat map]; try (rewrite app_nil_r; reflexivity).
    rewrite more_got, <- !app_assoc. apply Permutation_app_head. rewrite app_assoc, (Permutation_app_comm (concat (map got ps)) c), <- app_assoc.
    apply Permutation_app_head, IH. lia.
  Qed.
  Lemma extend_fst ps : forall css, map fst (extend ps css) = map fst ps.
  Proof. induction ps as [|p ps IH]; intros [|c css]; cbn [extend map]; auto. now rewrite IH. Qed.
  Lemma extend_fine ps : forall css, Forall (fun p => fine (told p)) ps -> Forall (fun p => fine (told p)) (extend ps css).
  Proof. induction ps as [|p ps IH]; intros [|c css] H; cbn [extend]; auto. inversion H as [|? ? H1 H2]; subst. constructor; [now apply more_fine|auto]. Qed.
  Lemma extend_ne ps : forall css, Forall (fun p => got p <> []) ps -> Forall (fun p => got p <> []) (extend ps css).
  Proof.
    induction ps as [|p ps IH]; intros [|c css] H; cbn [extend]; auto. inversion H as [|? ? H1 H2]; subst. constructor; [|auto].
    rewrite more_got. now destruct (got p).
  Qed.
  Lemma extend_full ps : forall css, length css = length ps -> Forall (fun c => c <> []) css -> Forall (fun p => got p <> []) (extend ps css).
  Proof.
    induction ps as [|p ps IH]; intros [|c css] Hl H; cbn [extend length] in *; try lia; [constructor|]. inversion H as [|? ? H1 H2]; subst.
    constructor; [|apply IH; [lia|exact H2]]. rewrite more_got. destruct c; [congruence|]. now destruct (got p).
  Qed.
  (** all members hold the same number of items *)
  Definition level_ (ps : list part) : Prop := exists n, Forall (fun p => length (got p) = n) ps.
  Lemma extend_level j ps : forall css, length css = length ps -> Forall (fun c => length c = j) css -> level_ ps -> level_ (extend ps css).
  Proof.
    intros css Hl Hj [n Hn]. exists (n + j)%nat. revert css Hl Hj. induction Hn as [|p ps Hp Hn IH]; intros [|c css] Hl Hj; cbn [extend length] in *; try lia; [constructor|].
    inversion Hj as [|? ? J1 J2]; subst. constructor; [rewrite more_got, app_length; lia|apply IH; [lia|exact J2]].
  Qed.
  Lemma chunks_even (l : list xr) cs j : l <> [] -> (1 <= length ds0)%nat -> (Z.of_nat (length l) < 2 ^ 53)%Z -> (Z.of_nat (length ds0) < 2 ^ 53)%Z ->
    chunks (par_chunk_size (length l) (length ds0)) l = Ret cs -> length cs = length ds0 -> concat cs = l -> length l = (j * length ds0)%nat -> Forall (fun c => length c = j) cs.
  Proof.
    intros Hne H1 H2 H3 E Hc Hcat Hl. assert (1 <= length l)%nat by (destruct l; [congruence|cbn; lia]). rewrite par_chunk_size_spec in E by auto.
    assert ((length l + (length ds0 - 1)) / length ds0 = j)%nat as Ej.
    { rewrite Hl. symmetry. apply Nat.div_unique with (r := (length ds0 - 1)%nat); [lia|ring]. }
    rewrite Ej in E. assert (1 <= j)%nat as Hj by (destruct j; [|lia]; destruct l; [congruence|cbn in Hl; lia]).
    assert (cs = chunks_list j l) as -> by (unfold chunks in E; destruct j; [lia|]; now injection E as <-).
    pose proof (chunks_list_bounds l Hj) as HB.
    assert (forall L : list (list xr), Forall (fun c => (length c <= j)%nat) L -> (length (concat L) <= j * length L)%nat /\ (length (concat L) = (j * length L)%nat -> Forall (fun c => length c = j) L)) as HH.
    { clear. induction L as [|c L IH]; intros H; [cbn; split; [lia|constructor]|]. inversion H as [|? ? A B]; subst. destruct (IH B) as [I1 I2]. cbn [concat length]. rewrite app_length.
      split; [lia|]. intros E. assert (length c = j) by nia. constructor; [assumption|]. apply I2. nia. }
    apply HH; [eapply Forall_impl; [|exact HB]; cbn; intros; lia|]. rewrite Hcat, Hc. exact Hl.
  Qed.
  Lemma okp_more p l : okp p -> okp (more p l).
  Proof. intros [H1 H2]. split; [exact H1|]. now apply more_fine. Qed.

  Lemma zip_at ps ds : Forall2 at_ ps ds -> Forall okp ps -> forall css, (Z.of_nat (length (all_got ps) + length (concat css)) <= lim)%Z -> (length css <= length ps)%nat ->
    always (Forall2 at_ (extend ps css)) (zip_add D ds (map (map XFin) css)).
  Proof.
    unfold all_got. induction 1 as [|p d ps ds Hp HF IH]; intros Hok css Hl Hc; destruct css as [|c css]; cbn [length] in *; try lia.
    - constructor.
    - cbn [extend map]. rewrite zip_nil. cbn [always]. now constructor.
    - inversion Hok as [|? ? O1 O2]; subst. cbn [extend map zip_add concat] in *. rewrite !app_length in Hl.
      assert (always (fun _ => True) (mrun (more p c))) as HA by (apply mrun_always; [exact (okp_more c O1)|rewrite more_got, app_length; lia]).
      rewrite mrun_more, always_bind_iff in HA.
      eapply always_bind; [exact (always_and_returns _ _ (@always_returns _ _ _ _ HA Hp))|]. intros d' [_ Hd']. cbn beta in Hd'.
      eapply always_bind; [apply (IH O2 css); lia|]. intros r Hr. cbn [always]. constructor; [|exact Hr].
      unfold at_. rewrite mrun_more. eapply returns_bind; [exact Hp|exact Hd'].
  Qed.

  (** after [ops] the members are distributed as if each of them had received its own chunks and the queries, independently *)
  Definition spread (ops : list (op xr)) (rs : list R) (ps : list part) sched : Prop :=
    (map fst ps = ds0 /\ Forall (fun p => fine (told p)) ps) /\ Permutation rs (all_got ps) /\
    always (fun r => Forall2 at_ ps (p_digests (fst r))) (exec PD (parallel_new D sched ds0) ops) /\
    forall h : list (dst D) -> R, expect (fun r => h (p_digests (fst r))) (exec PD (parallel_new D sched ds0) ops) = expect h (mapM mrun ps).

  Lemma okps ps : map fst ps = ds0 -> Forall (fun p => fine (told p)) ps -> Forall okp ps.
  Proof using Hub.
    intros E Hfi. rewrite <- E in Hub. apply Forall_forall. intros p Hp. rewrite Forall_forall in Hub, Hfi. split; [apply Hub; now apply in_map|now apply Hfi].
  Qed.
  Lemma spread_nil sched : spread [] [] (map (fun d => (d, [])) ds0) sched.
  Proof.
    split; [split; [rewrite map_map; apply map_id|]|]. { apply Forall_forall. intros p Hp. apply in_map_iff in Hp as (d & <- & _). split; constructor. } split.
    { unfold all_got. assert (concat (map got (map (fun d : dst D => (d, [])) ds0)) = []) as ->; [|constructor]. clear. induction ds0 as [|d ds IH]; [reflexivity|]. cbn [map concat]. exact IH. }
    cbn [exec always expect fst parallel_new p_digests]. split.
    - clear. induction ds0 as [|d ds IH]; [constructor|]. cbn [map]. constructor; [reflexivity|exact IH].
    - intros h. assert (mapM mrun (map (fun d => (d, [])) ds0) = Ret ds0) as ->; [|reflexivity].
      clear. induction ds0 as [|d ds IH]; [reflexivity|]. cbn [map mapM]. rewrite IH. reflexivity.
  Qed.

  Lemma add_spread ops rs ps sched (o : op xr) (l : list R) : spread ops rs ps sched -> o = AddBuf (map XFin l) \/ (exists x, o = Add (XFin x) /\ l = [x]) ->
    l <> [] -> (Z.of_nat (length rs + length l) <= lim)%Z ->
    exists ps', spread (ops ++ [o]) (rs ++ l) ps' sched /\
      (Forall (fun p => got p <> []) ps \/ (exists j, length l = (j * length ds0)%nat) -> Forall (fun p => got p <> []) ps') /\
      ((exists j, length l = (j * length ds0)%nat) -> level_ ps -> level_ ps').
  Proof using Hub Hlim Hlen Hds.
    intros ((S1 & S1f) & S2 & S3 & S4) Ho Hne Hl.
    pose proof (okps S1 S1f) as Hok. assert (length ps = length ds0) as HL by (rewrite <- S1; now rewrite map_length).
    assert (map XFin l <> []) as Hne' by (destruct l; [congruence|discriminate]).
    assert (1 <= length ds0)%nat as H1 by (destruct ds0; [congruence|cbn; lia]).
    assert (Z.of_nat (length (map XFin l)) < 2 ^ 53)%Z as Hs by (rewrite map_length; lia).
    destruct (@par_chunks_ok xr (map XFin l) (length ds0) Hne' H1 Hs Hlen) as (cs & Ech & Hcc & Hcn & Hcl & Hcm).
    assert (exists css, cs = map (map XFin) css /\ concat css = l) as (css & -> & Hcat).
    { clear -Hcc. revert l Hcc. induction cs as [|c cs IH]; intros l Hcc; cbn [concat] in Hcc.
      - exists []. split; [reflexivity|]. symmetry in Hcc. now apply map_eq_nil in Hcc.
      - symmetry in Hcc. apply map_eq_app in Hcc as (l1 & l2 & -> & <- & E2). destruct (IH l2 (eq_sym E2)) as (css & -> & <-). exists (l1 :: css). split; reflexivity. }
    rewrite map_length in Hcl, Hcm.
    pose proof (finite_no_nan (finite_XFin l)) as Hnn.
    assert (forall s : dst PD, length (p_digests s) = length ds0 -> step PD s o =
       bind (bind (zip_add D (p_digests s) (map (map XFin) css)) (fun ds => bind (max_by_key (fun x => x) (map XFin l)) (fun omax => bind (unwrap omax) (fun bmax =>
         bind (min_by_key (fun x => x) (map XFin l)) (fun omin => bind (unwrap omin) (fun bmin =>
           Ret {| p_digests := ds; p_min := fmin (p_min s) bmin; p_max := fmax (p_max s) bmax; p_sched := p_sched s; p_tick := p_tick s |} : M (dst PD))))))) (fun s' => Ret (s', []))) as Hadd.
    { intros s Es. assert (step PD s o = bind (parallel_add_buffer s (map XFin l)) (fun s' => Ret (s', []))) as -> by (destruct Ho as [->|(x & -> & ->)]; reflexivity).
      unfold parallel_add_buffer. rewrite Es, Ech. reflexivity. }
    assert (Z.of_nat (length (all_got ps) + length (concat css)) <= lim)%Z as Hlt by (rewrite <- (Permutation_length S2), Hcat; exact Hl).
    exists (extend ps css). split; [split; [split; [now rewrite extend_fst|now apply extend_fine]|split; [|split]]|].
    - rewrite S2, <- Hcat. apply extend_all. lia.
    - rewrite exec_app'. eapply always_bind; [exact S3|]. intros [s al] HF. cbn [fst] in HF. cbn [exec fst].
      rewrite (Hadd s (eq_trans (eq_sym (Forall2_len HF)) HL)). rewrite !bind_assoc.
      eapply always_bind; [apply (zip_at HF Hok css Hlt); lia|]. intros ds' HF'. rewrite !bind_assoc.
      eapply always_bind; [apply (max_by_ok Hne' Hnn)|]. intros omax (bmx & -> & _). cbn [unwrap bind]. rewrite !bind_assoc.
      eapply always_bind; [apply (min_by_ok Hne' Hnn)|]. intros omin (bmn & -> & _). cbn [unwrap bind always fst p_digests]. exact HF'.
    - intros h. rewrite exec_app', expect_bind.
      transitivity (expect (fun r => (fun ds => expect h (zip_add D ds (map (map XFin) css))) (p_digests (fst r))) (exec PD (parallel_new D sched ds0) ops)).
      + eapply expect_ext_whenever; [exact (@always_whenever _ _ _ S3)|]. intros [s al] HF. cbn [fst] in HF. cbn [exec fst snd]. 
        rewrite (Hadd s (eq_trans (eq_sym (Forall2_len HF)) HL)). rewrite !bind_assoc, expect_bind. apply expect_ext. intros ds'. rewrite !bind_assoc, expect_bind.
        transitivity (expect (fun _ : option xr => h ds') (max_by_key (fun x : xr => x) (map XFin l))).
        * eapply expect_ext_whenever; [exact (@always_whenever _ _ _ (max_by_ok Hne' Hnn))|]. intros omax (bmx & -> & _). cbn [unwrap bind]. rewrite !bind_assoc, expect_bind.
          transitivity (expect (fun _ : option xr => h ds') (min_by_key (fun x : xr => x) (map XFin l))).
          -- eapply expect_ext_whenever; [exact (@always_whenever _ _ _ (min_by_ok Hne' Hnn))|]. intros omin (bmn & -> & _). reflexivity.
          -- apply expect_const. eapply always_mono; [apply (min_by_ok Hne' Hnn)|]. intros; exact I.
        * apply expect_const. eapply always_mono; [apply (max_by_ok Hne' Hnn)|]. intros; exact I.
      + etransitivity; [exact (S4 (fun ds => expect h (zip_add D ds (map (map XFin) css))))|]. apply zip_expect.
    - split; [|intros (j & Hj); apply (@extend_level j); [rewrite HL, <- (map_length (map XFin) css); exact (Hcm j Hj)|]].
      2: { pose proof (@chunks_even (map XFin l) (map (map XFin) css) j Hne' H1 Hs Hlen Ech (Hcm j Hj) Hcc) as HE. rewrite map_length in HE. specialize (HE Hj).
           apply Forall_forall. intros c Hc. rewrite Forall_forall in HE. rewrite <- (map_length XFin c). apply HE. now apply in_map. }
      intros [HN|(j & Hj)]; [now apply extend_ne|]. apply extend_full.
      + rewrite HL, <- (map_length (map XFin) css). apply (Hcm j). exact Hj.
      + apply Forall_forall. intros x Hx E0. subst x. rewrite Forall_forall in Hcn. apply (Hcn (map XFin [])); [|reflexivity]. apply in_map. exact Hx.
  Qed.

  (* -------------------------------------------------------------- *)
  (** a query *)
  Definition mq (v : R) (d : dst D) : M (dst D * xr) := bind (d_est_q D d (XFin v)) (fun r => bind (d_count D (fst r)) (fun n => Ret (fst r, fmul (snd r) (fofZ n)))).
  Definition val (r : dst D * xr) : R := real (snd r).
  Definition fits (p : part) := okp p /\ got p <> [] /\ (Z.of_nat (length (got p)) <= lim)%Z.
  Lemma ask_member p d v : fits p -> at_ p d ->
    always (fun r => d_count D (fst r) = Ret (Z.of_nat (length (got p))) /\ exists x, snd r = XFin x) (d_est_q D d (XFin v)).
  Proof.
    intros ([[U C] Hfi] & Hne & Hl) Hat. unfold at_, mrun in Hat. apply returns_bind_inv in Hat as ([d1 al] & Hr & E). cbn in E. subst d1.
    assert (length (items_of (told p ++ [Quant (XFin v)])) = length (got p)) as EL by (rewrite items_of_app, told_items; cbn; now rewrite app_nil_r, map_length).
    pose proof (@ub_finite _ _ _ _ U (told p) (got p) v Hfi (told_items p) Hne Hl) as H1.
    pose proof (C _ (@ask_fine p v Hfi Hne)) as H2. rewrite EL in H2. specialize (H2 Hl).
    pose proof (@always_whenever_and _ _ _ _ H1 H2) as H3. rewrite exec_app', always_bind_iff in H3.
    pose proof (@always_returns _ _ _ _ H3 Hr) as H4. cbn beta in H4. cbn [fst snd exec step] in H4. rewrite !bind_assoc, always_bind_iff in H4.
    eapply always_mono; [exact H4|]. intros [d' x] H5. cbn [bind always fst snd] in H5. destruct H5 as [(al' & y & E) Hc].
    split; [exact Hc|]. rewrite app_nil_r in E. apply app_inj_tail in E as [_ ->]. now exists y.
  Qed.

  Definition nof (p : part) : R := INR (length (got p)).
  (** a member's share of the answer *)
  Lemma member_share p v (f : R -> R) : fits p ->
    expect (fun r => f (val r)) (bind (mrun p) (mq v)) = expect (fun r => f (nof p * last_answer r)) (exec D (fst p) (told p ++ [Quant (XFin v)])).
  Proof.
    intros HF. etransitivity; [|symmetry; exact (@ask_expect D (fst p) (told p) (XFin v) (fun x => f (nof p * x)))].
    unfold mrun. rewrite bind_assoc, expect_bind. cbn [bind].
    eapply expect_ext_whenever with (P := fun r => at_ p (fst r)).
    { apply whenever_returns. intros [d al] Hr. unfold at_, mrun. eapply returns_bind; [exact Hr|reflexivity]. }
    intros [d al] Hd. cbn [fst] in *. unfold mq. rewrite expect_bind.
    eapply expect_ext_whenever; [exact (@always_whenever _ _ _ (@ask_member p d v HF Hd))|]. intros [d' x] [Hc (y & E)]. cbn [fst snd] in *. subst x.
    rewrite Hc. cbn [bind expect]. unfold val. cbn [snd real]. f_equal. change (y * IZR (Z.of_nat (length (got p))) = nof p * y).
    unfold nof. rewrite INR_IZR_INZ. ring.
  Qed.
  Lemma member_always p v : fits p -> always (fun _ => True) (bind (mrun p) (mq v)).
  Proof.
    intros HF. pose proof HF as (Hok & _ & Hl). eapply always_bind; [exact (always_and_returns _ _ (mrun_always Hok Hl))|]. intros d [_ Hd].
    unfold mq. eapply always_bind; [exact (@ask_member p d v HF Hd)|]. intros [d' x] [Hc _]. cbn [fst] in *. rewrite Hc. exact I.
  Qed.
  Lemma upto_all v ps : upto v (all_got ps) = sumR (map (fun p => upto v (got p)) ps).
  Proof. unfold all_got. induction ps as [|p ps IH]; [reflexivity|]. cbn [map concat]. rewrite upto_app, IH. reflexivity. Qed.
  Lemma shares_centred v ps : Forall fits ps -> centred (fun p => bind (mrun p) (mq v)) val (fun p => upto v (got p)) ps.
  Proof.
    intros H. apply Forall_forall. intros p Hp. rewrite Forall_forall in H. specialize (H p Hp). split; [now apply member_always|].
    etransitivity; [exact (@member_share p v (fun x => x) H)|]. pose proof H as ([[U _] Hfi] & Hne & Hl). rewrite expect_scal.
    rewrite (ub_mean U v Hfi (told_items p) Hne Hl). unfold nof, size. field.
    apply not_0_INR. destruct (got p); [congruence|cbn; lia].
  Qed.

  Lemma parallel_answer ps (s : dst PD) v (f : R -> R) : Forall2 at_ ps (p_digests s) -> Forall fits ps -> ps <> [] -> (Z.of_nat (length (all_got ps)) <= lim)%Z ->
    expect (fun r => f (real (snd r))) (d_est_q PD s (XFin v)) = expect (fun rs => f (sumR (map val rs) / size (all_got ps))) (mapM (mq v) (p_digests s))
    /\ always (fun r => (exists x, snd r = XFin x) /\ Forall2 at_ (map (ask v) ps) (p_digests (fst r))) (d_est_q PD s (XFin v))
    /\ forall h : list (dst D) -> R, expect (fun r => h (p_digests (fst r))) (d_est_q PD s (XFin v)) = expect (fun rs => h (map fst rs)) (mapM (mq v) (p_digests s)).
  Proof.
    intros HM HF Hne Hl. cbn [d_est_q parallel_digest]. unfold parallel_est_q.
    set (Q := fun (p : part) (r : dst D * xr) => d_count D (fst r) = Ret (Z.of_nat (length (got p))) /\ (exists x, snd r = XFin x) /\ at_ (ask v p) (fst r)).
    assert (forall d, (do (d', e) <- d_est_q D d (XFin v); do n <- d_count D d'; Ret (d', fmul e (fofZ n))) = mq v d) as Emq.
    { intros d. unfold mq. apply bind_ext. intros [d' e]. reflexivity. }
    rewrite (mapM_ext _ (mq v) (p_digests s) Emq).
    assert (always (Forall2 Q ps) (mapM (mq v) (p_digests s))) as HQ.
    { apply mapM_always2. clear -HM HF. induction HM as [|p d ps ds Hp HM IH]; [constructor|]. inversion HF as [|? ? F1 F2]; subst. constructor; [|auto].
      unfold mq. eapply always_bind; [exact (always_and_returns _ _ (@ask_member p d v F1 Hp))|]. intros [d' x] [[Hc (y & E)] Hr]. cbn [fst snd] in *. rewrite Hc. cbn [bind always]. split; [exact Hc|].
      rewrite E. split; [eexists; reflexivity|]. cbn [fst]. unfold at_. rewrite mrun_ask. eapply returns_bind; [exact Hp|]. eapply returns_bind; [exact Hr|reflexivity]. }
    assert (0 < size (all_got ps)) as Hpos.
    { apply lt_0_INR. unfold all_got. destruct ps as [|p ps]; [congruence|]. inversion HF as [|? ? (_ & F1 & _) _]; subst. cbn [map concat]. rewrite app_length. destruct (got p); [congruence|cbn; lia]. }
    assert (forall rs s', p_digests s' = map fst rs -> Forall2 Q ps rs -> parallel_count s' = Ret (Z.of_nat (length (all_got ps))) /\
       fdiv (reduce f0 fadd (p_sched s (p_tick s)) (map snd rs)) (fofZ (Z.of_nat (length (all_got ps)))) = XFin (sumR (map val rs) / size (all_got ps))) as Hend.
    { intros rs s' Es HR. split.
      - unfold parallel_count. rewrite Es. clear -HR. unfold all_got.
        rewrite (@mapM_Ret _ _ (d_count D) (map fst rs) (map (fun p => Z.of_nat (length (got p))) ps)).
        + cbn [bind]. f_equal. assert (forall b, fold_left Z.add (map (fun p : part => Z.of_nat (length (got p))) ps) b = (b + Z.of_nat (length (concat (map got ps))))%Z) as Hs.
          { clear. induction ps as [|p ps IH]; intros b; cbn [map fold_left concat length]; [lia|]. rewrite IH, app_length. lia. }
          rewrite Hs. lia.
        + induction HR as [|p r ps rs [H1 _] _ IH]; cbn [map]; [constructor|]. constructor; assumption.
      - assert (map snd rs = map XFin (map val rs)) as ->.
        { clear -HR. induction HR as [|p r ps rs [_ [(x & E) _]] _ IH]; [reflexivity|]. cbn [map]. unfold val at 1. rewrite IH, E. reflexivity. }
        rewrite reduce_sum. change (@fofZ xr _ (Z.of_nat (length (all_got ps)))) with (XFin (IZR (Z.of_nat (length (all_got ps))))). rewrite <- INR_IZR_INZ, xdiv_fin by (apply Rgt_not_eq; exact Hpos). reflexivity. }
    split; [|split].
    - rewrite expect_bind. eapply expect_ext_whenever; [exact (@always_whenever _ _ _ HQ)|]. intros rs HR. cbn beta.
      match goal with |- expect _ (bind (parallel_count ?s') _) = _ => destruct (Hend rs s' eq_refl HR) as [E1 E2] end.
      rewrite E1. cbn [bind expect snd]. now rewrite E2.
    - eapply always_bind; [exact HQ|]. intros rs HR. cbn beta.
      match goal with |- always _ (bind (parallel_count ?s') _) => destruct (Hend rs s' eq_refl HR) as [E1 E2] end.
      rewrite E1. cbn [bind always fst snd p_digests]. rewrite E2. split; [eexists; reflexivity|].
      clear -HR. induction HR as [|p r ps rs [_ [_ H]] _ IH]; cbn [map]; constructor; assumption.
    - intros h. rewrite expect_bind. eapply expect_ext_whenever; [exact (@always_whenever _ _ _ HQ)|]. intros rs HR. cbn beta.
      match goal with |- expect _ (bind (parallel_count ?s') _) = _ => destruct (Hend rs s' eq_refl HR) as [E1 E2] end.
      rewrite E1. reflexivity.
  Qed.

  Lemma all_fit ps sched ops rs : spread ops rs ps sched -> Forall (fun p => got p <> []) ps -> (Z.of_nat (length rs) <= lim)%Z -> Forall fits ps.
  Proof using Hub.
    intros ((S1 & S1f) & S2 & _) HN Hl. pose proof (okps S1 S1f) as Hok. apply Forall_forall. intros p Hp. rewrite Forall_forall in HN, Hok.
    split; [now apply Hok|]. split; [now apply HN|]. rewrite (Permutation_length S2) in Hl. unfold all_got in Hl.
    assert (length (got p) <= length (concat (map got ps)))%nat; [|lia]. clear -Hp.
    induction ps as [|q ps IH]; [destruct Hp|]. cbn [map concat]. rewrite app_length. destruct Hp as [->|Hp]; [lia|]. specialize (IH Hp). lia.
  Qed.

  (** the members after a query, without the answers *)
  Lemma ask_states v ps : Forall fits ps -> forall h : list (dst D) -> R,
    expect (fun rs => h (map fst rs)) (mapM (fun p => bind (mrun p) (mq v)) ps) = expect h (mapM mrun (map (ask v) ps)).
  Proof.
    induction 1 as [|p ps Hp HF IH]; intros h; [reflexivity|]. cbn [map mapM]. rewrite !expect_bind, mrun_ask, !expect_bind.
    eapply expect_ext_whenever with (P := at_ p); [apply whenever_returns; auto|]. intros d Hd. change (mq v d) with (bind (d_est_q D d (XFin v)) (fun r => bind (d_count D (fst r)) (fun n => Ret (fst r, fmul (snd r) (fofZ n) : xr)))). rewrite !expect_bind.
    eapply expect_ext_whenever; [exact (@always_whenever _ _ _ (@ask_member p d v Hp Hd))|]. intros [d' x] [Hc _]. cbn [fst snd] in *. rewrite Hc. cbn [bind expect].
    rewrite !expect_bind. cbn [expect]. exact (IH (fun l => h (d' :: l))).
  Qed.

  Lemma query_spread ops rs ps sched v : spread ops rs ps sched -> Forall (fun p => got p <> []) ps -> (Z.of_nat (length rs) <= lim)%Z ->
    spread (ops ++ [Quant (XFin v)]) rs (map (ask v) ps) sched.
  Proof using Hub Hds Hlen Hlim.
    intros HS HN Hl. pose proof (@all_fit ps sched ops rs HS HN Hl) as HF. destruct HS as ((S1 & S1f) & S2 & S3 & S4).
    assert (length ps = length ds0) as HL by (rewrite <- S1; now rewrite map_length).
    assert (ps <> []) as Hne by (intros ->; cbn in HL; destruct ds0; [congruence|discriminate]).
    assert (Z.of_nat (length (all_got ps)) <= lim)%Z as Hl' by (now rewrite <- (Permutation_length S2)).
    assert (map got (map (ask v) ps) = map got ps) as Eg by (rewrite map_map; apply map_ext; intros p; apply ask_got).
    split; [split|split; [|split]].
    - rewrite map_map. exact S1.
    - clear -S1f HN. induction S1f as [|p ps Hp _ IH]; cbn [map]; [constructor|]. inversion HN as [|? ? N1 N2]; subst. constructor; [|auto]. rewrite told_ask. now apply ask_fine.
    - unfold all_got. rewrite Eg. exact S2.
    - rewrite exec_app'. eapply always_bind; [exact S3|]. intros [s al] HM. cbn [fst snd exec step] in *. rewrite !bind_assoc.
      eapply always_bind; [exact (proj1 (proj2 (@parallel_answer ps s v (fun x => x) HM HF Hne Hl')))|]. intros [s' x] [_ HM']. exact HM'.
    - intros h. rewrite exec_app', expect_bind.
      transitivity (expect (fun r => (fun ds => expect (fun rs' => h (map fst rs')) (mapM (mq v) ds)) (p_digests (fst r))) (exec PD (parallel_new D sched ds0) ops)).
      + eapply expect_ext_whenever; [exact (@always_whenever _ _ _ S3)|]. intros [s al] HM. cbn [fst snd] in *.
        etransitivity; [|exact (proj2 (proj2 (@parallel_answer ps s v (fun x => x) HM HF Hne Hl')) h)].
        cbn [exec step fst snd]. rewrite !bind_assoc, expect_bind. apply expect_ext. intros [s' x]. reflexivity.
      + etransitivity; [exact (S4 (fun ds => expect (fun rs' => h (map fst rs')) (mapM (mq v) ds)))|].
        etransitivity; [symmetry; apply expect_bind|]. etransitivity; [apply mapM_fuse|]. now apply ask_states.
  Qed.

  (** a buffer whose length is a multiple of the number of members, or a query *)
  Definition even (o : op xr) : Prop := (exists v, o = Quant v) \/ exists b j, o = AddBuf b /\ length b = (j * length ds0)%nat.
  (** no value queries: those bisect, and ask the members what depends on the answers of all of them *)
  Definition no_values (ops : list (op xr)) : Prop := Forall (fun o => forall q, o <> Val q) ops.

  Lemma grow sched : forall ops' pre rs ps rs', spread pre rs ps sched -> Forall (fun p => got p <> []) ps -> Forall fine_op ops' -> no_values ops' ->
    Forall (fun o => o <> AddBuf []) ops' -> items_of ops' = map XFin rs' -> (Z.of_nat (length rs + length rs') <= lim)%Z ->
    exists ps', spread (pre ++ ops') (rs ++ rs') ps' sched /\ Forall (fun p => got p <> []) ps' /\
      (Forall even ops' -> level_ ps -> level_ ps').
  Proof using Hub Hlim Hlen Hds.
    induction ops' as [|o ops' IH]; intros pre rs ps rs' HS HN Hf Hq He Hi Hl.
    - destruct rs'; [|discriminate]. exists ps. rewrite !app_nil_r. repeat split; auto; apply HS.
    - inversion Hf as [|? ? F1 F2]; subst. inversion He as [|? ? E1 E2]; subst.
      inversion Hq as [|? ? Q1 Q2]; subst.
      assert ((exists v, o = Quant (XFin v)) \/ exists l r2, (o = AddBuf (map XFin l) \/ (exists x, o = Add (XFin x) /\ l = [x])) /\ l <> [] /\ rs' = l ++ r2 /\ items_of ops' = map XFin r2) as [(v & ->)|(l & r2 & Ho & Hne & -> & Hi2)].
      { destruct o as [x|b|v|q]; cbn [items_of] in Hi; [right|right|left|now destruct (Q1 q)].
        - destruct rs' as [|r rs']; [discriminate|]. injection Hi as -> Hi. exists [r], rs'. split; [right; now exists r|]. split; [discriminate|]. split; [reflexivity|exact Hi].
        - symmetry in Hi. apply map_eq_app in Hi as (l & r2 & -> & <- & <-). exists l, r2. split; [now left|]. split; [intros ->; now apply E1|]. split; reflexivity.
        - destruct F1 as [v' ->]. now exists v'. }
      { pose proof (@query_spread pre rs ps sched v HS HN ltac:(lia)) as HS'. cbn [items_of] in Hi.
        destruct (IH (pre ++ [Quant (XFin v)]) rs (map (ask v) ps) rs' HS') as (ps2 & HS2 & HN2 & HV2); auto.
        { apply Forall_map. eapply Forall_impl; [|exact HN]. intros p Hp. now rewrite ask_got. }
        exists ps2. rewrite <- app_assoc in HS2. split; [exact HS2|]. split; [exact HN2|]. intros HE [n Hn]. inversion HE as [|? ? _ G2]; subst.
        apply HV2; [exact G2|]. exists n. apply Forall_map. eapply Forall_impl; [|exact Hn]. intros p Hp. now rewrite ask_got. }
      rewrite app_length in Hl. destruct (@add_spread pre rs ps sched o l HS Ho Hne) as (ps' & HS' & HN' & HV'); [lia|].
      destruct (IH (pre ++ [o]) (rs ++ l) ps' r2 HS' (HN' (or_introl HN)) F2 Q2 E2 Hi2) as (ps2 & HS2 & HN2 & HV2); [rewrite app_length; lia|].
      exists ps2. rewrite <- !app_assoc in HS2. split; [exact HS2|]. split; [exact HN2|]. intros HE Hlv. inversion HE as [|? ? [(v & ->)|(b & j & -> & Hb)] G2]; subst; [destruct Ho as [Ho|(x & Ho & _)]; discriminate|].
      apply HV2; [exact G2|]. apply HV'; [|exact Hlv]. exists j. destruct Ho as [Ho|(x & Ho & _)]; [|discriminate]. injection Ho as ->. now rewrite map_length in Hb.
  Qed.
  Lemma insertions sched ops rs : filled (length ds0) ops -> fine ops -> no_values ops -> items_of ops = map XFin rs -> (Z.of_nat (length rs) <= lim)%Z ->
    exists ps, spread ops rs ps sched /\ Forall (fun p => got p <> []) ps /\ (Forall even ops -> level_ ps).
  Proof using Hub Hlim Hlen Hds.
    intros (b & j & ops' & -> & Hj & Hb & He) [Hf _] Hq Hi Hl. inversion Hf as [|? ? F1 F2]; subst. inversion Hq as [|? ? _ Hq']; subst. cbn [items_of] in Hi.
    symmetry in Hi. apply map_eq_app in Hi as (l & r2 & -> & <- & Hi). rewrite map_length in Hb. rewrite app_length in Hl.
    assert (1 <= length ds0)%nat as H1 by (destruct ds0; [congruence|cbn; lia]).
    assert (l <> []) as Hne by (intros ->; cbn in Hb; nia).
    destruct (@add_spread [] [] _ sched (AddBuf (map XFin l)) l (spread_nil sched) (or_introl eq_refl) Hne) as (ps & HS & HN & HV); [cbn; lia|].
    destruct (@grow sched ops' _ _ ps r2 HS (HN (or_intror (ex_intro _ j Hb))) F2 Hq' He (eq_sym Hi)) as (ps2 & HS2 & HN2 & HV2); [cbn; lia|].
    exists ps2. cbn [app] in HS2. split; [exact HS2|]. split; [exact HN2|]. intros HE. inversion HE as [|? ? _ G2]; subst. apply HV2; [exact G2|].
    apply HV; [now exists j|]. exists 0%nat. apply Forall_forall. intros p Hp. apply in_map_iff in Hp as (d & <- & _). reflexivity.
  Qed.

  Theorem parallel_unbiased sched ops rs v : filled (length ds0) ops -> fine ops -> no_values ops -> items_of ops = map XFin rs -> (Z.of_nat (length rs) <= lim)%Z ->
    exists parts, length parts = length ds0 /\ Permutation rs (concat parts) /\ Forall (fun l => l <> []) parts /\
      (Forall even ops -> exists n, Forall (fun l => length l = n) parts) /\
      always (fun r => exists al x, snd r = al ++ [XFin x]) (exec PD (parallel_new D sched ds0) (ops ++ [Quant (XFin v)])) /\
      expect last_answer (exec PD (parallel_new D sched ds0) (ops ++ [Quant (XFin v)])) = upto v rs / size rs /\
      expect (fun r => (last_answer r - upto v rs / size rs) ^ 2) (exec PD (parallel_new D sched ds0) (ops ++ [Quant (XFin v)])) <=
        sumR (map (fun l => (size l / size rs) ^ 2 * a l v) parts).
  Proof using Hub Hlim Hlen Hds.
    intros Hfl Hf Hq Hi Hl. destruct (@insertions sched ops rs Hfl Hf Hq Hi Hl) as (ps & HS & HN & HV).
    pose proof (@all_fit ps sched ops rs HS HN Hl) as HF. destruct HS as ((S1 & _) & S2 & S3 & S4).
    assert (length ps = length ds0) as HL by (rewrite <- S1; now rewrite map_length).
    assert (ps <> []) as Hne by (intros ->; cbn in HL; destruct ds0; [congruence|discriminate]).
    assert (Z.of_nat (length (all_got ps)) <= lim)%Z as Hl' by (now rewrite <- (Permutation_length S2)).
    assert (size (all_got ps) = size rs) as Esz by (unfold size; now rewrite (Permutation_length S2)).
    assert (0 < size rs) as Hpos.
    { rewrite <- Esz. apply lt_0_INR. unfold all_got. destruct ps as [|p ps']; [congruence|]. inversion HN as [|? ? F1 _]; subst. cbn [map concat]. rewrite app_length. destruct (got p); [congruence|cbn; lia]. }
    assert (forall f : R -> R, expect (fun r => f (last_answer r)) (exec PD (parallel_new D sched ds0) (ops ++ [Quant (XFin v)])) =
        expect (fun rs' => f (sumR (map val rs') / size rs)) (mapM (fun p => bind (mrun p) (mq v)) ps)) as HE.
    { intros f. etransitivity; [exact (@ask_expect PD _ ops (XFin v) f)|].
      transitivity (expect (fun r => (fun ds => expect (fun rs' => f (sumR (map val rs') / size rs)) (mapM (mq v) ds)) (p_digests (fst r))) (exec PD (parallel_new D sched ds0) ops)).
      - eapply expect_ext_whenever; [exact (@always_whenever _ _ _ S3)|]. intros [s al] HM. cbn [fst] in *.
        etransitivity; [exact (proj1 (@parallel_answer ps s v f HM HF Hne Hl'))|]. now rewrite Esz.
      - etransitivity; [exact (S4 (fun ds => expect (fun rs' => f (sumR (map val rs') / size rs)) (mapM (mq v) ds)))|].
        etransitivity; [symmetry; apply expect_bind|]. apply mapM_fuse. }
    pose proof (shares_centred v HF) as HC. destruct (sum_mean HC) as [A1 A2]. pose proof (sum_var HC) as A3.
    assert (sumR (map (fun p => upto v (got p)) ps) = upto v rs) as Eup by (rewrite <- upto_all; symmetry; apply upto_perm, S2). rewrite Eup in A2, A3.
    exists (map got ps). split; [now rewrite map_length|]. split; [exact S2|]. split; [now apply Forall_map|]. split.
    { intros HEv. destruct (HV HEv) as [n Hn]. exists n. now apply Forall_map. }
    split; [|split].
    - rewrite exec_app'. eapply always_bind; [exact S3|]. intros [s al] HM. cbn [fst snd exec step] in *. rewrite !bind_assoc.
      eapply always_bind; [exact (proj1 (proj2 (@parallel_answer ps s v (fun x => x) HM HF Hne Hl')))|]. intros [s' x] [(y & E) _]. cbn [snd] in E. subst x. cbn [bind always fst snd].
      exists al, y. now rewrite app_nil_r.
    - etransitivity; [exact (HE (fun x => x))|]. transitivity (expect (fun rs' => / size rs * sumR (map val rs')) (mapM (fun p => bind (mrun p) (mq v)) ps)).
      + apply expect_ext. intros. unfold Rdiv. ring.
      + rewrite expect_scal, A2. unfold Rdiv. ring.
    - eapply Rle_trans; [right; exact (HE (fun x => (x - upto v rs / size rs) ^ 2))|].
      apply Rle_trans with (expect (fun rs' => (/ size rs) ^ 2 * (sumR (map val rs') - upto v rs) ^ 2) (mapM (fun p => bind (mrun p) (mq v)) ps)).
      + right. apply expect_ext. intros. unfold Rdiv. ring.
      + rewrite expect_scal, A3. rewrite map_map. clear -HF Hpos. induction HF as [|p ps Hp HF IH]; [cbn; lra|].
        cbn [map]. unfold sumR in *. cbn [fold_right]. rewrite Rmult_plus_distr_l. apply Rplus_le_compat; [|exact IH].
        pose proof Hp as ([[U _] Hfi] & Hne & Hl).
        assert (nof p <> 0) as Hn0 by (apply not_0_INR; destruct (got p); [congruence|cbn; lia]).
        assert (expect (fun y => (val y - upto v (got p)) ^ 2) (bind (mrun p) (mq v)) <= nof p ^ 2 * a (got p) v) as HB.
        { eapply Rle_trans; [right; exact (@member_share p v (fun x => (x - upto v (got p)) ^ 2) Hp)|].
          apply Rle_trans with (expect (fun r => nof p ^ 2 * (last_answer r - upto v (got p) / size (got p)) ^ 2) (exec D (fst p) (told p ++ [Quant (XFin v)]))).
          - right. apply expect_ext. intros r. unfold nof, size in *. field. exact Hn0.
          - rewrite expect_scal. apply Rmult_le_compat_l; [apply pow2_ge_0|]. exact (ub_mse U v Hfi (told_items p) Hne Hl). }
        replace ((size (got p) / size rs) ^ 2 * a (got p) v) with ((/ size rs) ^ 2 * (nof p ^ 2 * a (got p) v)) by (unfold nof, size, Rdiv; ring).
        apply Rmult_le_compat_l; [apply pow2_ge_0|exact HB].
  Qed.
  (** the same with exponential moments *)
  Theorem parallel_exp (c : list R -> R -> R) sched ops rs v :
    Forall (fun d => forall ops rs v l, fine ops -> items_of ops = map XFin rs -> rs <> [] -> (Z.of_nat (length rs) <= lim)%Z ->
      expect (fun r => exp (l * (last_answer r - upto v rs / size rs))) (exec D d (ops ++ [Quant (XFin v)])) <= exp (l ^ 2 / 2 * c rs v)) ds0 ->
    filled (length ds0) ops -> fine ops -> no_values ops -> items_of ops = map XFin rs -> (Z.of_nat (length rs) <= lim)%Z ->
    exists parts, length parts = length ds0 /\ Permutation rs (concat parts) /\ Forall (fun l => l <> []) parts /\
      (Forall even ops -> exists n, Forall (fun l => length l = n) parts) /\
      forall l, expect (fun r => exp (l * (last_answer r - upto v rs / size rs))) (exec PD (parallel_new D sched ds0) (ops ++ [Quant (XFin v)])) <=
        exp (l ^ 2 / 2 * sumR (map (fun l => (size l / size rs) ^ 2 * c l v) parts)).
  Proof using Hub Hlim Hlen Hds.
    intros HX Hfl Hf Hq Hi Hl. destruct (@insertions sched ops rs Hfl Hf Hq Hi Hl) as (ps & HS & HN & HV).
    pose proof (@all_fit ps sched ops rs HS HN Hl) as HF. destruct HS as ((S1 & _) & S2 & S3 & S4).
    assert (length ps = length ds0) as HL by (rewrite <- S1; now rewrite map_length).
    assert (ps <> []) as Hne by (intros ->; cbn in HL; destruct ds0; [congruence|discriminate]).
    assert (Z.of_nat (length (all_got ps)) <= lim)%Z as Hl' by (now rewrite <- (Permutation_length S2)).
    assert (size (all_got ps) = size rs) as Esz by (unfold size; now rewrite (Permutation_length S2)).
    assert (0 < size rs) as Hpos.
    { rewrite <- Esz. apply lt_0_INR. unfold all_got. destruct ps as [|p ps']; [congruence|]. inversion HN as [|? ? F1 _]; subst. cbn [map concat]. rewrite app_length. destruct (got p); [congruence|cbn; lia]. }
    assert (forall f : R -> R, expect (fun r => f (last_answer r)) (exec PD (parallel_new D sched ds0) (ops ++ [Quant (XFin v)])) =
        expect (fun rs' => f (sumR (map val rs') / size rs)) (mapM (fun p => bind (mrun p) (mq v)) ps)) as HE.
    { intros f. etransitivity; [exact (@ask_expect PD _ ops (XFin v) f)|].
      transitivity (expect (fun r => (fun ds => expect (fun rs' => f (sumR (map val rs') / size rs)) (mapM (mq v) ds)) (p_digests (fst r))) (exec PD (parallel_new D sched ds0) ops)).
      - eapply expect_ext_whenever; [exact (@always_whenever _ _ _ S3)|]. intros [s al] HM. cbn [fst] in *.
        etransitivity; [exact (proj1 (@parallel_answer ps s v f HM HF Hne Hl'))|]. now rewrite Esz.
      - etransitivity; [exact (S4 (fun ds => expect (fun rs' => f (sumR (map val rs') / size rs)) (mapM (mq v) ds)))|].
        etransitivity; [symmetry; apply expect_bind|]. apply mapM_fuse. }
    assert (sumR (map (fun p => upto v (got p)) ps) = upto v rs) as Eup by (rewrite <- upto_all; symmetry; apply upto_perm, S2).
    exists (map got ps). split; [now rewrite map_length|]. split; [exact S2|]. split; [now apply Forall_map|]. split.
    { intros HEv. destruct (HV HEv) as [n Hn]. exists n. now apply Forall_map. }
    intros l. eapply Rle_trans; [right; exact (HE (fun x => exp (l * (x - upto v rs / size rs))))|]. rewrite <- Eup, map_map.
    assert (Forall (fun p => In (fst p) ds0) ps) as Hin.
    { apply Forall_forall. intros p Hp. rewrite <- S1. now apply in_map. }
    rewrite Forall_forall in HX. clear -HX HF Hpos Hin.
    apply Rle_trans with (expect (fun rs' => exp (l / size rs * (sumR (map val rs') - sumR (map (fun p => upto v (got p)) ps)))) (mapM (fun p => bind (mrun p) (mq v)) ps)).
    { right. apply expect_ext. intros. f_equal. field. lra. }
    induction HF as [|p ps Hp HF IH].
    - cbn [mapM expect map]. unfold sumR. cbn [fold_right]. rewrite Rminus_0_r, !Rmult_0_r. apply Rle_refl.
    - inversion Hin as [|? ? I1 I2]; subst. specialize (IH I2). cbn [mapM map]. rewrite expect_bind.
      change (sumR (upto v (got p) :: map (fun p => upto v (got p)) ps)) with (upto v (got p) + sumR (map (fun p => upto v (got p)) ps)).
      change (sumR (?x :: map ?f ps)) with (x + sumR (map f ps)).
      set (S := sumR (map (fun p => upto v (got p)) ps)) in *. set (K := sumR (map (fun x => (size (got x) / size rs) ^ 2 * c (got x) v) ps)) in *.
      apply Rle_trans with (expect (fun y => exp (l ^ 2 / 2 * K) * exp (l / size rs * (val y - upto v (got p)))) (bind (mrun p) (mq v))).
      + eapply expect_le_always; [now apply member_always|]. intros y _. rewrite expect_bind. cbn [expect map].
        apply Rle_trans with (exp (l / size rs * (val y - upto v (got p))) * expect (fun rs' => exp (l / size rs * (sumR (map val rs') - S))) (mapM (fun p => bind (mrun p) (mq v)) ps)).
        * right. rewrite <- expect_scal. apply expect_ext. intros xs. change (sumR (val y :: map val xs)) with (val y + sumR (map val xs)).
          rewrite <- exp_plus. f_equal. ring.
        * rewrite Rmult_comm. apply Rmult_le_compat_r; [apply Rlt_le, exp_pos|exact IH].
      + rewrite expect_scal. pose proof Hp as ([_ Hfi] & Hne & Hlp).
        assert (nof p <> 0) as Hn0 by (apply not_0_INR; destruct (got p); [congruence|cbn; lia]).
        eapply Rle_trans; [apply Rmult_le_compat_l; [apply Rlt_le, exp_pos|]|].
        * eapply Rle_trans; [right; exact (@member_share p v (fun x => exp (l / size rs * (x - upto v (got p)))) Hp)|].
          eapply Rle_trans; [|exact (HX (fst p) I1 (told p) (got p) v (l * nof p / size rs) Hfi (told_items p) Hne Hlp)].
          right. apply expect_ext. intros r. f_equal. unfold nof in *. field. split; [exact Hn0|lra].
        * right. rewrite <- exp_plus. f_equal. unfold nof. field. lra.
  Qed.
End Par.

Lemma squares_le (ns : list R) : Forall (fun x => 0 <= x) ns -> sumR (map (fun x => x ^ 2) ns) <= sumR ns ^ 2 /\ 0 <= sumR ns.
Proof.
  unfold sumR. induction 1 as [|x l Hx _ [IH IH0]]; cbn [map fold_right]; [split; lra|]. split; [|lra]. nra.
Qed.
Lemma size_concat (parts : list (list R)) : size (concat parts) = sumR (map (fun l => size l) parts).
Proof. unfold sumR. induction parts as [|l ls IH]; [reflexivity|]. cbn [concat map fold_right]. rewrite app_length, plus_INR. lra. Qed.

Lemma shares_le (parts : list (list R)) rs (a : list R -> R -> R) v b : Permutation rs (concat parts) -> rs <> [] -> (forall l, a l v <= b) -> 0 <= b ->
  sumR (map (fun l => (size l / size rs) ^ 2 * a l v) parts) <= b.
Proof.
  intros HP Hne Ha Hb. assert (0 < size rs) as Hpos by (apply lt_0_INR; destruct rs; [congruence|cbn; lia]).
  assert (size rs = sumR (map (fun l => size l) parts)) as Es by (rewrite <- size_concat; now rewrite (Permutation_length HP)).
  apply Rle_trans with (sumR (map (fun l => b / size rs ^ 2 * size l ^ 2) parts)).
  - clear -Ha Hpos. unfold sumR. induction parts as [|l ls IH]; cbn [map fold_right]; [lra|]. apply Rplus_le_compat; [|exact IH].
    replace (b / size rs ^ 2 * size l ^ 2) with ((size l / size rs) ^ 2 * b) by (field; lra). apply Rmult_le_compat_l; [apply pow2_ge_0|apply Ha].
  - assert (sumR (map (fun l => b / size rs ^ 2 * size l ^ 2) parts) = b / size rs ^ 2 * sumR (map (fun x => x ^ 2) (map (fun l => size l) parts))) as ->.
    { clear. unfold sumR. induction parts as [|l ls IH]; cbn [map fold_right]; [lra|]. rewrite IH. ring. }
    destruct (@squares_le (map (fun l => size l) parts)) as [H1 _]. { apply Forall_forall. intros x Hx. apply in_map_iff in Hx as (l & <- & _). apply pos_INR. }
    rewrite <- Es in H1. apply Rle_trans with (b / size rs ^ 2 * size rs ^ 2); [|right; field; lra].
    apply Rmult_le_compat_l; [|exact H1]. apply Rmult_le_pos; [exact Hb|]. left. apply Rinv_0_lt_compat. apply pow_lt, Hpos.
Qed.
Lemma shares_even (parts : list (list R)) rs (a : list R -> R -> R) v b n : Permutation rs (concat parts) -> rs <> [] -> (forall l, a l v <= b) ->
  Forall (fun l => length l = n) parts -> sumR (map (fun l => (size l / size rs) ^ 2 * a l v) parts) <= b / INR (length parts).
Proof.
  intros HP Hne Ha Hn. assert (0 < size rs) as Hpos by (apply lt_0_INR; destruct rs; [congruence|cbn; lia]).
  assert (size rs = INR (length parts) * INR n) as Es.
  { rewrite (Permutation_length HP), <- mult_INR. f_equal. clear -Hn. induction Hn as [|l ls Hl _ IH]; [reflexivity|]. cbn [concat length]. rewrite app_length. lia. }
  assert (0 <> INR (length parts) /\ INR n <> 0) as [H1 H2] by (split; intros E; [rewrite <- E in Es|rewrite E in Es]; lra).
  apply Rle_trans with (INR (length parts) * ((INR n / size rs) ^ 2 * b)).
  - clear -Ha Hn. unfold sumR. induction Hn as [|l ls Hl _ IH]; cbn [map fold_right length]; [cbn; lra|]. rewrite S_INR, Rmult_plus_distr_r, Rmult_1_l, Rplus_comm.
    apply Rplus_le_compat; [exact IH|]. rewrite Hl. apply Rmult_le_compat_l; [apply pow2_ge_0|apply Ha].
  - rewrite Es. right. field. split; [intros E; apply H1; now symmetry|exact H2].
Qed.

Theorem parallel_const (D : digest xr) lim a (ds0 : list (dst D)) b sched ops rs v : (lim < 2 ^ 53)%Z -> ds0 <> [] -> (Z.of_nat (length ds0) < 2 ^ 53)%Z ->
  Forall (fun d => unbiased D d lim a /\ counted D d lim) ds0 -> (forall l, a l v <= b) -> 0 <= b ->
  filled (length ds0) ops -> fine ops -> no_values ops -> items_of ops = map XFin rs -> (Z.of_nat (length rs) <= lim)%Z ->
  let answer := exec (parallel_digest D) (parallel_new D sched ds0) (ops ++ [Quant (XFin v)]) in
  expect last_answer answer = upto v rs / size rs /\
  expect (fun r => (last_answer r - upto v rs / size rs) ^ 2) answer <= b /\
  (Forall (fun o => (exists v, o = Quant v) \/ exists l j, o = AddBuf l /\ length l = (j * length ds0)%nat) ops ->
    expect (fun r => (last_answer r - upto v rs / size rs) ^ 2) answer <= b / INR (length ds0)).
Proof.
  intros Hlim Hds Hlen Hub Ha Hb Hfl Hf Hq Hi Hl answer.
  destruct (@parallel_unbiased D lim a ds0 Hlim Hds Hlen Hub sched ops rs v Hfl Hf Hq Hi Hl) as (parts & P1 & P2 & P3 & P4 & _ & P5 & P6).
  assert (rs <> []) as Hne.
  { intros ->. apply Permutation_nil in P2. destruct parts as [|l parts]; [destruct ds0; [congruence|discriminate]|]. inversion P3; subst. cbn in P2. now destruct l. }
  split; [exact P5|]. split; [eapply Rle_trans; [exact P6|]; now apply shares_le|].
  intros HE. destruct (P4 HE) as [n Hn]. eapply Rle_trans; [exact P6|]. rewrite <- P1. now apply (@shares_even parts rs a v b n).
Qed.
