(** Accuracy of ParallelDigest in exact arithmetic, for every schedule: the members' rank errors add up, and the bisection turns
    accurate quantile estimates into accurate value estimates. *)
From Coq Require Import List Arith ZArith Lia Bool Permutation Reals Lra.
From Verif Require Import Base Floats XReal Digest Spec FloatFacts History LinearProofs WrapProofs MultiSymProofs ChunkProofs ParallelProofs ParallelProofs2.
From Verif Require Import TDigestExact TDigestHist TDigestTop TDigestAcc TDigestAcc2 TDigestDrift Accurate.
Set Implicit Arguments.
Set Universe Polymorphism.
Unset Universe Minimization ToSet.
Local Open Scope R_scope.

(** the first call is a buffer whose length is a positive multiple of [m], and no buffer is empty *)
Definition filled (m : nat) (ops : list (op xr)) : Prop :=
  exists l j ops', ops = AddBuf l :: ops' /\ (1 <= j)%nat /\ length l = (j * m)%nat /\ Forall (fun o => o <> AddBuf []) ops'.

Lemma below_perm v l l' : Permutation l l' -> below v l = below v l'.
Proof.
  intros H. unfold below. f_equal. induction H as [|x l l' _ IH|x y l|l l' l'' _ IH1 _ IH2]; cbn [filter]; auto; [|now destruct (Rlt_dec x v), (Rlt_dec y v)|congruence].
  destruct (Rlt_dec x v); cbn [length]; lia.
Qed.
Lemma upto_perm v l l' : Permutation l l' -> upto v l = upto v l'.
Proof.
  intros H. unfold upto. f_equal. induction H as [|x l l' _ IH|x y l|l l' l'' _ IH1 _ IH2]; cbn [filter]; auto; [|now destruct (Rle_dec x v), (Rle_dec y v)|congruence].
  destruct (Rle_dec x v); cbn [length]; lia.
Qed.
Lemma within_perm l l' e t v : Permutation l l' -> within l e t v -> within l' e t v.
Proof. intros H. unfold within. now rewrite (below_perm v H), (upto_perm v H). Qed.

Lemma mapM_always2 {A B C} (P : C -> B -> Prop) (f : A -> M B) (ps : list C) (l : list A) :
  Forall2 (fun p a => always (P p) (f a)) ps l -> always (fun rs => Forall2 P ps rs) (mapM f l).
Proof.
  induction 1 as [|p a ps l Ha _ IH]; cbn [mapM]; [constructor|]. eapply always_bind; [exact Ha|]. intros b Hb.
  eapply always_bind; [exact IH|]. intros bs Hbs. cbn. now constructor.
Qed.

Lemma reduce_sum t : forall l : list R, reduce f0 fadd t (map XFin l) = XFin (sumR l).
Proof.
  induction t as [|n t1 IH1 t2 IH2]; intros l; cbn [reduce].
  - assert (forall a, fold_left fadd (map XFin l) (XFin a) = XFin (a + sumR l)) as Hs.
    { induction l as [|x l IH]; intros a; cbn [map fold_left]; unfold sumR; cbn [fold_right]; [now rewrite Rplus_0_r|].
      change (fadd (XFin a) (XFin x)) with (XFin (a + x)). rewrite IH. f_equal. unfold sumR. lra. }
    change (@f0 xr _) with (XFin 0). now rewrite Hs, Rplus_0_l.
  - rewrite firstn_map, skipn_map, IH1, IH2. change (fadd (XFin (sumR (firstn n l))) (XFin (sumR (skipn n l)))) with (XFin (sumR (firstn n l) + sumR (skipn n l))).
    f_equal. rewrite <- (firstn_skipn n l) at 3. generalize (firstn n l) (skipn n l). intros u w. unfold sumR. induction u as [|a u IH]; cbn [app fold_right]; lra.
Qed.

#[local] Instance FLx : FloatLaws xr := xr_laws (Z.le_refl 4096).

Section Par.
  Variables (D : digest xr) (lim : Z) (e : nat -> nat -> R) (E : nat -> nat -> R) (ds0 : list (dst D)).
  Hypotheses (Hlim : (lim < 2 ^ 53)%Z) (Hds : ds0 <> []) (Hlen : (Z.of_nat (length ds0) < 2 ^ 53)%Z).
  Hypothesis Hacc : Forall (fun d => rank_accurate D d lim (fun c _ n => e c n) /\ counted D d lim) ds0.
  Hypothesis Hmono : forall c c' n, (c <= c')%nat -> e c n <= e c' n.
  Hypothesis Hpos : forall c n, 0 <= e c n.
  Hypothesis Hsum : forall c ns, length ns = length ds0 -> Forall (fun n => (1 <= n)%nat) ns -> sumR (map (e c) ns) <= E c (sum_nat ns).
  Notation PD := (parallel_digest D).

  (** [s] is a state the member started in [fst p] can be in after at most [c] insertions supplying [snd p] *)
  Definition reach (c : nat) (p : dst D * list R) (s : dst D) : Prop :=
    In (fst p) ds0 /\ exists ops al, fine ops /\ (calls ops <= c)%nat /\ items_of ops = map XFin (snd p) /\ returns (exec D (fst p) ops) (s, al).

  Lemma accs p c s : reach c p s -> rank_accurate D (fst p) lim (fun c _ n => e c n) /\ counted D (fst p) lim.
  Proof. intros [H _]. rewrite Forall_forall in Hacc. exact (Hacc _ H). Qed.

  Lemma reach_mono c c' p s : (c <= c')%nat -> reach c p s -> reach c' p s.
  Proof. intros Hc (H & ops & al & H1 & H2 & H3 & H4). split; [exact H|]. exists ops, al. repeat split; auto; [apply H1|apply H1|lia]. Qed.

  Lemma reach_add c p s l : reach c p s -> (Z.of_nat (length (snd p) + length l) <= lim)%Z ->
    always (fun s' => reach (S c) (fst p, snd p ++ l) s') (d_add_buffer D s (map XFin l)).
  Proof.
    intros HR Hl. destruct (accs HR) as [HA _]. destruct HR as (Hin & ops & al & Hf & Hc & Hi & Hr).
    assert (fine (ops ++ [AddBuf (map XFin l)])) as Hf'.
    { apply fine_insert; [exact Hf| |reflexivity]. cbn. apply Forall_forall. intros x Hx. apply in_map_iff in Hx as (y & <- & _). now exists y. }
    assert (items_of (ops ++ [AddBuf (map XFin l)]) = map XFin (snd p ++ l)) as Hi' by (rewrite items_of_app; cbn; now rewrite app_nil_r, Hi, map_app).
    assert ((Z.of_nat (length (items_of (ops ++ [AddBuf (map XFin l)]))) <= lim)%Z) as Hl' by (rewrite Hi', map_length, app_length; exact Hl).
    pose proof (@step_runs D (fst p) lim _ HA ops _ _ _ Hf' Hl' Hr) as HS. cbn [step] in HS. rewrite always_bind_iff in HS.
    eapply always_mono; [exact (always_and_returns _ _ HS)|]. intros s' [_ Hs']. split; [exact Hin|].
    exists (ops ++ [AddBuf (map XFin l)]), (al ++ []). cbn [fst snd]. split; [exact Hf'|]. split; [rewrite calls_app; change (calls [AddBuf (map XFin l)]) with 1%nat; lia|].
    split; [exact Hi'|]. apply (@returns_snoc D (fst p) ops (AddBuf (map XFin l)) s al s' [] Hr). cbn [step]. eapply returns_bind; [exact Hs'|reflexivity].
  Qed.

  Lemma reach_count c p s : reach c p s -> (Z.of_nat (length (snd p)) <= lim)%Z -> d_count D s = Ret (Z.of_nat (length (snd p))).
  Proof.
    intros HR Hl. destruct (accs HR) as [_ HC]. destruct HR as (_ & ops & al & Hf & _ & Hi & Hr).
    assert ((Z.of_nat (length (items_of ops)) <= lim)%Z) as Hl' by (rewrite Hi, map_length; exact Hl).
    pose proof (HC ops Hf Hl') as H. rewrite whenever_returns in H. pose proof (H _ Hr) as H1. cbn [fst] in H1. now rewrite Hi, map_length in H1.
  Qed.

  Lemma reach_ask c p s v : reach c p s -> snd p <> [] -> (Z.of_nat (length (snd p)) <= lim)%Z ->
    always (fun r => reach c p (fst r) /\ exists a, snd r = XFin a /\ within (snd p) (e c (length (snd p))) (size (snd p) * a) v) (d_est_q D s (XFin v)).
  Proof.
    intros HR Hne Hl. destruct (accs HR) as [HA _]. destruct HR as (Hin & ops & al & Hf & Hc & Hi & Hr).
    assert (items_of ops <> []) as Hne' by (rewrite Hi; destruct (snd p); [congruence|discriminate]).
    assert (fine (ops ++ [Quant (XFin v)])) as Hf' by (apply fine_ask; [exact Hf|eexists; reflexivity|exact Hne']).
    pose proof (@step_rank D (fst p) lim _ HA ops (snd p) v s al Hf Hi Hne Hl Hr) as HQ.
    eapply always_mono; [exact (always_and_returns _ _ HQ)|]. intros [s' a] [(x & Ex & Hx) Hs']. cbn [fst snd] in *. subst a. split.
    - split; [exact Hin|]. exists (ops ++ [Quant (XFin v)]), (al ++ [XFin x]). split; [exact Hf'|].
      split; [rewrite calls_app; change (calls [Quant (XFin v)]) with 0%nat; lia|].
      split; [rewrite items_of_app; cbn; now rewrite app_nil_r|].
      apply (@returns_snoc D (fst p) ops (Quant (XFin v)) s al s' [XFin x] Hr). cbn [step]. eapply returns_bind; [exact Hs'|reflexivity].
    - exists x. split; [reflexivity|]. refine (within_wider _ Hx). now apply Hmono.
  Qed.

  (** the whole state: [ps] pairs every member's start with the items it got *)
  Definition members (c : nat) (ps : list (dst D * list R)) (ds : list (dst D)) : Prop := Forall2 (reach c) ps ds.
  Definition held (ps : list (dst D * list R)) : list R := concat (map snd ps).

  Lemma members_add c : forall ps ds css, members c ps ds -> (length css <= length ds)%nat -> (Z.of_nat (length (held ps) + length (concat css)) <= lim)%Z ->
    always (fun ds' => exists ps', members (S c) ps' ds' /\ length ps' = length ps /\ Permutation (held ps ++ concat css) (held ps') /\
        (Forall (fun p => snd p <> []) ps -> Forall (fun p => snd p <> []) ps') /\
        (length css = length ds -> Forall (fun l => l <> []) css -> Forall (fun p => snd p <> []) ps'))
      (zip_add D ds (map (map XFin) css)).
  Proof.
    unfold held. intros ps ds css HM. revert css. induction HM as [|p s ps ds Hp HM IH]; intros css Hc Hl.
    - destruct css; [|cbn in Hc; lia]. cbn. exists []. repeat split; auto; constructor.
    - destruct css as [|l css]; cbn [map zip_add].
      + exists (p :: ps). cbn [concat]. rewrite app_nil_r. split; [|split; [reflexivity|split; [reflexivity|split; [auto|intros; discriminate]]]].
        constructor; [eapply reach_mono; [|exact Hp]; lia|]. eapply Forall2_impl; [|exact HM]. intros; eapply reach_mono; [|eassumption]; lia.
      + cbn [map concat length] in *. rewrite !app_length in Hl.
        eapply always_bind; [apply (reach_add _ Hp); lia|]. intros d' Hd'.
        eapply always_bind; [apply (IH css); lia|]. intros ds' (ps' & H1 & H2 & H3 & H4 & H5). cbn [always].
        exists ((fst p, snd p ++ l) :: ps'). cbn [map concat length snd fst].
        split; [constructor; assumption|]. split; [lia|]. split.
        { rewrite <- !app_assoc. apply Permutation_app_head. rewrite app_assoc, (Permutation_app_comm (concat (map snd ps)) l), <- app_assoc. now apply Permutation_app_head. }
        split.
        * intros HF. inversion HF; subst. constructor; [|auto]. cbn. now destruct (snd p).
        * intros HL HF. inversion HF as [|? ? F1 F2]; subst. constructor; [|apply H5; [lia|exact F2]]. cbn. now destruct (snd p), l.
  Qed.

  Lemma members_count c ps ds : members c ps ds -> (Z.of_nat (length (held ps)) <= lim)%Z ->
    (do ns <- mapM (d_count D) ds; Ret (fold_left Z.add ns 0%Z)) = Ret (Z.of_nat (length (held ps))).
  Proof.
    unfold held. intros HM Hl. rewrite (@mapM_Ret _ _ (d_count D) ds (map (fun p => Z.of_nat (length (snd p))) ps)).
    - cbn [bind]. f_equal. assert (forall a, fold_left Z.add (map (fun p : dst D * list R => Z.of_nat (length (snd p))) ps) a = (a + Z.of_nat (length (concat (map snd ps))))%Z) as Hs.
      { clear. induction ps as [|p ps IH]; intros a; cbn [map fold_left concat length]; [lia|]. rewrite IH, app_length. lia. }
      rewrite Hs. lia.
    - induction HM as [|p s ps ds Hp HM IH]; cbn [map concat] in *; [constructor|]. rewrite app_length in Hl. constructor; [apply (reach_count Hp); lia|apply IH; lia].
  Qed.

  Definition errs (c : nat) (ps : list (dst D * list R)) : R := sumR (map (fun p => e c (length (snd p))) ps).

  Lemma errs_le c ps : length ps = length ds0 -> Forall (fun p => snd p <> []) ps -> errs c ps <= E c (length (held ps)).
  Proof.
    intros HL HF. unfold errs, held. replace (length (concat (map snd ps))) with (sum_nat (map (fun p => length (snd p)) ps)).
    - rewrite <- (map_map (fun p : dst D * list R => length (snd p)) (e c)). apply Hsum; [now rewrite map_length|].
      apply Forall_forall. intros n Hn. apply in_map_iff in Hn as (p & <- & Hp). rewrite Forall_forall in HF. specialize (HF p Hp). destruct (snd p); [congruence|cbn; lia].
    - clear. induction ps as [|p ps IH]; [reflexivity|]. cbn [map concat sum_nat fold_right]. rewrite app_length, <- IH. reflexivity.
  Qed.

  Lemma parallel_ask c ps (s : parallel D) v : members c ps (p_digests s) -> Forall (fun p => snd p <> []) ps -> ps <> [] -> (Z.of_nat (length (held ps)) <= lim)%Z ->
    always (fun r => members c ps (p_digests (fst r)) /\ p_min (fst r) = p_min s /\ p_max (fst r) = p_max s /\ p_tick (fst r) = S (p_tick s) /\
       exists a, snd r = XFin a /\ within (held ps) (errs c ps) (size (held ps) * a) v) (parallel_est_q s (XFin v)).
  Proof.
    intros HM HF Hne Hl. unfold parallel_est_q.
    eapply always_bind.
    - apply mapM_always2 with (ps := ps) (P := fun p r => reach c p (fst r) /\
         exists t, snd r = XFin t /\ within (snd p) (e c (length (snd p))) t v).
      unfold held in Hl. clear Hne. induction HM as [|p d ps ds Hp HM IH]; [constructor|]. cbn [map concat] in Hl. rewrite app_length in Hl.
      inversion HF as [|? ? F1 F2]; subst. constructor; [|apply IH; [exact F2|lia]].
      assert ((Z.of_nat (length (snd p)) <= lim)%Z) as Hlp by lia.
      eapply always_bind; [exact (reach_ask v Hp F1 Hlp)|]. intros [d' a] [R1 (x & Ex & Hx)]. cbn [fst snd] in *. subst a.
      rewrite (reach_count R1 Hlp). cbn [bind always fst snd]. split; [exact R1|]. exists (size (snd p) * x). split; [|exact Hx].
      change (XFin (x * IZR (Z.of_nat (length (snd p)))) = XFin (size (snd p) * x)). rewrite <- INR_IZR_INZ. f_equal. lra.
    - intros rs HR.
      assert (members c ps (map fst rs)) as HM' by (unfold members; apply Forall2_map_r; eapply Forall2_impl; [|exact HR]; now intros ? ? [? _]).
      pose proof (members_count HM' Hl) as HC. unfold parallel_count. cbn [p_digests]. rewrite HC. cbn [bind always fst snd p_digests p_min p_max p_tick].
      split; [exact HM'|]. split; [reflexivity|]. split; [reflexivity|]. split; [reflexivity|].
      assert (exists ts, map snd rs = map XFin ts /\ within (held ps) (errs c ps) (sumR ts) v) as (ts & Et & Ht).
      { clear -HR. unfold held, errs. induction HR as [|p r ps rs [_ (t & Et & Ht)] _ IH].
        - exists []. split; [reflexivity|]. unfold within, below, upto. cbn. lra.
        - destruct IH as (ts & E2 & H2). exists (t :: ts). cbn [map concat]. rewrite Et, E2. split; [reflexivity|].
          unfold within in *. rewrite below_app, upto_app. unfold sumR in *. cbn [fold_right]. lra. }
      rewrite Et, reduce_sum.
      assert (0 < size (held ps)) as Hp.
      { apply lt_0_INR. unfold held. destruct ps as [|p ps]; [congruence|]. inversion HF; subst. cbn [map concat]. rewrite app_length. destruct (snd p); [congruence|cbn; lia]. }
      change (@fofZ xr _ (Z.of_nat (length (held ps)))) with (XFin (IZR (Z.of_nat (length (held ps))))). rewrite <- INR_IZR_INZ, xdiv_fin by lra.
      exists (sumR ts / size (held ps)). split; [reflexivity|]. replace (size (held ps) * (sumR ts / size (held ps))) with (sumR ts) by (field; lra). exact Ht.
  Qed.

  (* -------------------------------------------------------------- *)
  (** whole histories *)

  Definition par_state (c : nat) (rs : list R) (s : parallel D) : Prop :=
    exists ps, members c ps (p_digests s) /\ length ps = length ds0 /\ Permutation rs (held ps) /\
      (rs <> [] -> Forall (fun p => snd p <> []) ps) /\ min_inv (map XFin rs) (p_min s) /\ max_inv (map XFin rs) (p_max s).

  Lemma par_mono c c' rs s : (c <= c')%nat -> par_state c rs s -> par_state c' rs s.
  Proof.
    intros Hc (ps & H & Hr). exists ps. split; [|exact Hr]. eapply Forall2_impl; [|exact H]. intros; eapply reach_mono; eassumption.
  Qed.

  Lemma members_len c ps ds : members c ps ds -> length ps = length ds.
  Proof. apply Forall2_len. Qed.

  Lemma finite_XFin (l : list R) : Forall (@finite xr xr_ops FLx) (map XFin l).
  Proof. apply Forall_forall. intros x Hx. apply in_map_iff in Hx as (y & <- & _). exists y. reflexivity. Qed.

  Lemma par_add c rs s (l : list R) : par_state c rs s -> l <> [] -> (rs <> [] \/ exists j, length l = (j * length ds0)%nat) ->
    (Z.of_nat (length rs + length l) <= lim)%Z ->
    always (par_state (S c) (rs ++ l)) (parallel_add_buffer s (map XFin l)).
  Proof.
    intros (ps & HM & HL & HP & HF & Hmn & Hmx) Hne Hor Hl. unfold parallel_add_buffer.
    pose proof (members_len HM) as HLM.
    assert (map XFin l <> []) as Hne' by (destruct l; [congruence|discriminate]).
    assert (1 <= length (p_digests s))%nat as H1 by (rewrite <- HLM, HL; destruct ds0; [congruence|cbn; lia]).
    assert (Z.of_nat (length (map XFin l)) < 2 ^ 53)%Z as Hs by (rewrite map_length; lia).
    assert (Z.of_nat (length (p_digests s)) < 2 ^ 53)%Z as Hs' by (rewrite <- HLM, HL; exact Hlen).
    destruct (@par_chunks_ok xr (map XFin l) (length (p_digests s)) Hne' H1 Hs Hs') as (cs & -> & Hcc & Hcn & Hcl & Hcm). cbn [bind].
    assert (exists css, cs = map (map XFin) css /\ concat css = l) as (css & -> & Hcat).
    { clear -Hcc. revert l Hcc. induction cs as [|c cs IH]; intros l Hcc; cbn [concat] in Hcc.
      - exists []. split; [reflexivity|]. symmetry in Hcc. now apply map_eq_nil in Hcc.
      - symmetry in Hcc. apply map_eq_app in Hcc as (l1 & l2 & -> & <- & E2). destruct (IH l2 (eq_sym E2)) as (css & -> & <-). exists (l1 :: css). split; reflexivity. }
    rewrite map_length in Hcl, Hcm.
    eapply always_bind; [apply (members_add css HM); [exact Hcl|]|].
    { rewrite Hcat, <- (Permutation_length HP). exact Hl. }
    intros ds' (ps' & HM' & HL' & HP' & HF1 & HF2). rewrite Hcat in HP'.
    pose proof (finite_no_nan (finite_XFin l)) as Hnn.
    eapply always_bind; [apply (max_by_ok Hne' Hnn)|]. intros omax (bmx & -> & Hbx). cbn [unwrap bind].
    eapply always_bind; [apply (min_by_ok Hne' Hnn)|]. intros omin (bmn & -> & Hbn). cbn [unwrap bind always].
    exists ps'. cbn [p_digests p_min p_max]. split; [exact HM'|]. split; [lia|]. split; [rewrite HP; exact HP'|]. split.
    - intros _. destruct Hor as [Hr|(j & Hj)]; [apply HF1, HF, Hr|]. apply HF2.
      + rewrite <- (map_length (map XFin) css). apply (Hcm j). now rewrite <- HLM, HL.
      + apply Forall_forall. intros x Hx E0. subst x. rewrite Forall_forall in Hcn. apply (Hcn (map XFin [])); [|reflexivity]. apply in_map. exact Hx.
    - rewrite map_app. split; [apply min_inv_update|apply max_inv_update]; auto using finite_XFin.
  Qed.

  Lemma min_inv_XFin rs m : rs <> [] -> min_inv (map XFin rs) m -> exists r, m = XFin r /\ leastR rs r.
  Proof.
    intros Hne [_ H]. destruct H as [(x & Hx & Ex) Hall]; [destruct rs; [congruence|discriminate]|]. apply in_map_iff in Hx as (r & <- & Hr).
    apply feq_iff in Ex as [Ex _]. change (XFin r = m) in Ex. subst m. exists r. split; [reflexivity|]. split; [exact Hr|].
    intros y Hy. pose proof (Hall _ (in_map XFin _ _ Hy)) as Hle. apply fle_iff, xle_iff in Hle. exact Hle.
  Qed.
  Lemma max_inv_XFin rs m : rs <> [] -> max_inv (map XFin rs) m -> exists r, m = XFin r /\ mostR rs r.
  Proof.
    intros Hne [_ H]. destruct H as [(x & Hx & Ex) Hall]; [destruct rs; [congruence|discriminate]|]. apply in_map_iff in Hx as (r & <- & Hr).
    apply feq_iff in Ex as [Ex _]. change (XFin r = m) in Ex. subst m. exists r. split; [reflexivity|]. split; [exact Hr|].
    intros y Hy. pose proof (Hall _ (in_map XFin _ _ Hy)) as Hle. apply fle_iff, xle_iff in Hle. exact Hle.
  Qed.

  Lemma below_least rs mn : leastR rs mn -> below mn rs = 0.
  Proof.
    intros [_ H]. unfold below. replace (filter _ rs) with (@nil R); [reflexivity|]. symmetry. clear -H. induction rs as [|x rs IH]; [reflexivity|].
    cbn [filter]. destruct (Rlt_dec x mn); [pose proof (H x (or_introl eq_refl)); lra|]. apply IH. intros; apply H. now right.
  Qed.
  Lemma upto_most rs mx : mostR rs mx -> upto mx rs = size rs.
  Proof.
    intros [_ H]. unfold upto. f_equal. f_equal. clear -H. induction rs as [|x rs IH]; [reflexivity|].
    cbn [filter]. destruct (Rle_dec x mx) as [_|N]; [|exfalso; apply N, H; now left]. f_equal. apply IH. intros; apply H. now right.
  Qed.

  Lemma held_ne rs ps : rs <> [] -> Permutation rs (held ps) -> ps <> [].
  Proof. intros H HP ->. apply H, Permutation_nil. symmetry. exact HP. Qed.
  Lemma errs_pos c ps : 0 <= errs c ps.
  Proof. unfold errs, sumR. induction ps as [|p ps IH]; cbn [map fold_right]; [lra|]. pose proof (Hpos c (length (snd p))). lra. Qed.

  Lemma par_quant c rs s v : par_state c rs s -> rs <> [] -> (Z.of_nat (length rs) <= lim)%Z ->
    always (fun r => par_state c rs (fst r) /\ exists a, snd r = XFin a /\ within rs (E c (length rs)) (size rs * a) v) (parallel_est_q s (XFin v)).
  Proof.
    intros (ps & HM & HL & HP & HF & Hmn & Hmx) Hne Hl. pose proof (held_ne Hne HP) as Hps. pose proof (HF Hne) as HF'.
    rewrite (Permutation_length HP) in Hl.
    eapply always_mono; [exact (@parallel_ask c ps s v HM HF' Hps Hl)|]. intros r (H1 & H2 & H3 & _ & a & Ea & Ha). split.
    - exists ps. rewrite H2, H3. auto 10.
    - exists a. split; [exact Ea|]. apply within_perm with (l := held ps); [now symmetry|]. rewrite (Permutation_length HP).
      refine (within_wider _ Ha). now apply errs_le.
  Qed.

  (** the bisection's answer [x]: the items below some [a] just under [x], and those up to [x], enclose rank [q n] *)
  Definition bracketed (rs : list R) (err q x : R) : Prop :=
    exists a mn mx, leastR rs mn /\ mostR rs mx /\ mn <= a <= x /\ x <= mx /\ x - a <= / 1000000 * (Rabs mn + Rabs mx) /\
      below a rs - err <= size rs * q <= upto x rs + err.

  Lemma par_val c rs s q : par_state c rs s -> rs <> [] -> (Z.of_nat (length rs) <= lim)%Z -> 0 <= q <= 1 ->
    always (fun r => par_state c rs (fst r) /\ exists x, snd r = XFin x /\ bracketed rs (E c (length rs)) q x) (parallel_est_v s (XFin q)).
  Proof.
    intros (ps & HM & HL & HP & HF & Hmn & Hmx) Hne Hl Hq. pose proof (held_ne Hne HP) as Hps. pose proof (HF Hne) as HF'.
    pose proof Hl as Hl0. rewrite (Permutation_length HP) in Hl.
    destruct (min_inv_XFin Hne Hmn) as (mn & En & Ln). destruct (max_inv_XFin Hne Hmx) as (mx & Ex & Lx).
    assert (mn <= mx) as Hle by (apply Ln, Lx).
    set (G := fun v (a : xr) => exists r, a = XFin r /\ within (held ps) (errs c ps) (size (held ps) * r) v).
    set (PI := fun t : parallel D => members c ps (p_digests t) /\ p_min t = XFin mn /\ p_max t = XFin mx).
    assert (PI s) as HPI by (split; [exact HM|split; assumption]).
    assert (XFin q <> XNaN) as Hqn by discriminate.
    eapply always_mono; [apply (@parallel_est_v_ok D PI mn mx) with (G := G)|].
    - intros t [_ Ht]. exact Ht.
    - exact Hle.
    - intros t v (T1 & T2 & T3) _. eapply always_mono; [exact (@parallel_ask c ps t v T1 HF' Hps Hl)|].
      intros r (H1 & H2 & H3 & H4 & a & Ea & Ha). split; [split; [exact H1|split; congruence]|]. split; [rewrite Ea; discriminate|]. split; [exists a; auto|exact H4].
    - exact Hqn.
    - exact HPI.
    - intros r ((T1 & T2 & T3) & _ & x & a & b & Er & Ha & Hb & Hw & Hlow & Hhigh & Hx). split.
      + exists ps. rewrite T2, T3, <- En, <- Ex. auto 10.
      + exists x. split; [exact Er|]. exists a, mn, mx. split; [exact Ln|]. split; [exact Lx|]. split; [exact Ha|]. split; [lra|].
        split; [lra|].
        assert (errs c ps <= E c (length rs)) as HE by (rewrite (Permutation_length HP); now apply errs_le).
        pose proof (errs_pos c ps) as H0. pose proof (pos_INR (length rs)) as HN.
        rewrite (below_perm a HP), (upto_perm x HP).
        assert (size rs = size (held ps)) as HS by (now rewrite (Permutation_length HP)).
        split.
        * destruct Hlow as [-> |(y & (r0 & -> & G1 & G2) & Hy)].
          { rewrite <- (below_perm mn HP), (below_least Ln). nra. }
          { apply xle_iff in Hy. cbn in Hy. rewrite HS in *. nra. }
        * assert (forall z r0, within (held ps) (errs c ps) (size (held ps) * r0) z -> q <= r0 -> size rs * q <= upto z (held ps) + E c (length rs)) as HU.
          { intros z r0 [G1 G2] Hr0. rewrite HS in *. nra. }
          destruct Hx as [-> |(y & (r0 & -> & G1) & Hy)].
          { destruct Hhigh as [-> |(y & (r0 & -> & G1) & Hy)].
            - rewrite <- (upto_perm mx HP), (upto_most Lx). nra.
            - apply xlt_iff in Hy. cbn in Hy. apply (HU b r0 G1). lra. }
          { apply xle_iff in Hy. cbn in Hy. exact (HU x r0 G1 Hy). }
  Qed.

  Lemma par_exec : forall ops c rs s rs', par_state c rs s -> rs <> [] -> Forall fine_op ops -> Forall (fun o => o <> AddBuf []) ops ->
    items_of ops = map XFin rs' -> (Z.of_nat (length (rs ++ rs')) <= lim)%Z ->
    always (fun r => par_state (c + calls ops) (rs ++ rs') (fst r)) (exec PD s ops).
  Proof.
    induction ops as [|o ops IH]; intros c rs s rs' HS Hne Hf Hb Hi Hl.
    - cbn in Hi. symmetry in Hi. apply map_eq_nil in Hi. subst. cbn [exec always fst]. rewrite app_nil_r. change (calls []) with 0%nat. now rewrite Nat.add_0_r.
    - inversion Hf as [|? ? F1 F2]; subst. inversion Hb as [|? ? B1 B2]; subst. cbn [exec].
      assert (forall l rs2 s', rs' = l ++ rs2 -> items_of ops = map XFin rs2 -> par_state (S c) (rs ++ l) s' ->
                always (fun r => par_state (c + calls (o :: ops)) (rs ++ rs') (fst r)) (do (s'', b) <- exec PD s' ops; Ret (s'', @nil xr ++ b)) \/ calls [o] = 0%nat) as Hadd.
      { intros l rs2 s' -> Hi2 Hs'. destruct (calls [o]) as [|[|n]] eqn:Ec; [now right|left|destruct o; discriminate].
        eapply always_bind; [apply (IH (S c) (rs ++ l) s' rs2 Hs')|].
        - destruct rs; [congruence|discriminate].
        - exact F2.
        - exact B2.
        - exact Hi2.
        - rewrite <- app_assoc. exact Hl.
        - intros [s2 b] H2. cbn [always fst] in *. rewrite app_assoc. change (o :: ops) with ([o] ++ ops). rewrite calls_app, Ec. replace (c + (1 + calls ops))%nat with (S c + calls ops)%nat by lia. exact H2. }
      destruct o as [x|l|v|q]; cbn [step].
      + destruct F1 as [x0 ->]. destruct rs' as [|y rs2]; [discriminate|]. cbn [items_of map] in Hi. injection Hi as <- Hi. rewrite bind_assoc.
        eapply always_bind; [apply (@par_add c rs s [x0] HS); [discriminate|now left|rewrite app_length in Hl; cbn in Hl |- *; lia]|].
        intros s' Hs'. cbn [bind]. destruct (Hadd [x0] rs2 s' eq_refl Hi Hs') as [H|H]; [exact H|discriminate].
      + cbn [items_of] in Hi. symmetry in Hi. apply map_eq_app in Hi as (l1 & l2 & -> & <- & Hi). rewrite bind_assoc.
        eapply always_bind; [apply (@par_add c rs s l1 HS); [intros ->; now apply B1|now left|rewrite !app_length in Hl; lia]|].
        intros s' Hs'. cbn [bind]. destruct (Hadd l1 l2 s' eq_refl (eq_sym Hi) Hs') as [H|H]; [exact H|discriminate].
      + destruct F1 as [v0 ->]. cbn [items_of] in Hi. rewrite bind_assoc. rewrite app_length in Hl.
        eapply always_bind; [apply (@par_quant c rs s v0 HS Hne); lia|]. intros [s' a] [Hs' _]. cbn [bind fst] in *.
        eapply always_bind; [apply (IH c rs s' rs' Hs' Hne F2 B2 Hi); rewrite app_length; exact Hl|]. intros [s2 b] H2. exact H2.
      + destruct F1 as (q0 & -> & Hq). cbn [items_of] in Hi. rewrite bind_assoc. rewrite app_length in Hl.
        eapply always_bind; [apply (@par_val c rs s q0 HS Hne); [lia|exact Hq]|]. intros [s' a] [Hs' _]. cbn [bind fst] in *.
        eapply always_bind; [apply (IH c rs s' rs' Hs' Hne F2 B2 Hi); rewrite app_length; exact Hl|]. intros [s2 b] H2. exact H2.
  Qed.

  Lemma par_new sched : par_state 0 [] (parallel_new D sched ds0).
  Proof.
    exists (map (fun d => (d, [])) ds0). cbn [parallel_new p_digests p_min p_max]. split; [|split; [|split; [|split; [|split]]]].
    - unfold members. apply Forall2_map_l. assert (forall d, In d ds0 -> reach 0 (d, []) d) as H.
      { intros d Hd. split; [exact Hd|]. exists [], []. split; [exact fine_nil|]. split; [apply Nat.le_refl|]. split; reflexivity. }
      assert (forall l, incl l ds0 -> Forall2 (fun c b => reach 0 (c, []) b) l l) as HG; [|exact (HG ds0 (fun d Hd => Hd))].
      clear -H. intros l. induction l as [|d l IH]; intros Hl; constructor; [apply H, Hl; now left|apply IH; intros x Hx; apply Hl; now right].
    - apply map_length.
    - unfold held. rewrite map_map. cbn [snd]. clear. induction ds0 as [|d l IH]; [reflexivity|exact IH].
    - congruence.
    - split; [reflexivity|]. intros H. now elim H.
    - split; [reflexivity|]. intros H. now elim H.
  Qed.

  Lemma par_history sched ops rs : filled (length ds0) ops -> fine ops -> items_of ops = map XFin rs -> (Z.of_nat (length rs) <= lim)%Z ->
    rs <> [] /\ always (fun r => par_state (calls ops) rs (fst r)) (exec PD (parallel_new D sched ds0) ops).
  Proof.
    intros (l & j & ops' & -> & Hj & Hlj & Hb) [Hf _] Hi Hl. cbn [items_of] in Hi. symmetry in Hi. apply map_eq_app in Hi as (l1 & l2 & -> & <- & Hi).
    rewrite map_length in Hlj. assert (l1 <> []) as Hne.
    { intros ->. cbn in Hlj. destruct ds0; [congruence|]. cbn in Hlj. lia. }
    split; [destruct l1; [congruence|discriminate]|]. inversion Hf as [|? ? _ F2]; subst. cbn [exec step]. rewrite app_length in Hl. rewrite bind_assoc.
    eapply always_bind; [apply (@par_add 0 [] _ l1 (par_new sched) Hne); [right; exists j; exact Hlj|cbn; lia]|]. intros s' Hs'. cbn [bind app] in *.
    eapply always_bind; [apply (@par_exec ops' 1 l1 s' l2 Hs' Hne F2 Hb (eq_sym Hi)); rewrite app_length; exact Hl|].
    intros [s2 b] H2. exact H2.
  Qed.

  Lemma par_last sched ops rs o : filled (length ds0) ops -> fine ops -> items_of ops = map XFin rs -> (Z.of_nat (length rs) <= lim)%Z ->
    forall P, (forall s, rs <> [] -> par_state (calls ops) rs s -> always (fun r => exists a, snd r = [a] /\ P a) (step PD s o)) ->
    always (fun r => exists al a, snd r = al ++ [a] /\ P a) (exec PD (parallel_new D sched ds0) (ops ++ [o])).
  Proof.
    intros H1 H2 H3 H4 P HP. rewrite exec_app. destruct (@par_history sched ops rs H1 H2 H3 H4) as [Hne HA]. eapply always_bind; [exact HA|].
    intros [s al] Hs. cbn [fst snd exec] in *. rewrite bind_assoc. eapply always_bind; [exact (HP s Hne Hs)|]. intros [s' b] (a & Ea & Ha). cbn [snd] in Ea. subst b. cbn. exists al, a. auto.
  Qed.

  Theorem parallel_rank sched ops rs v : filled (length ds0) ops -> fine ops -> items_of ops = map XFin rs -> (Z.of_nat (length rs) <= lim)%Z ->
    always (fun r => exists al a, snd r = al ++ [XFin a] /\ within rs (E (calls ops) (length rs)) (size rs * a) v)
      (exec PD (parallel_new D sched ds0) (ops ++ [Quant (XFin v)])).
  Proof.
    intros H1 H2 H3 H4. eapply always_mono; [apply (@par_last sched ops rs (Quant (XFin v)) H1 H2 H3 H4) with (P := fun x => exists a, x = XFin a /\ within rs (E (calls ops) (length rs)) (size rs * a) v)|].
    - intros s Hne Hs. cbn [step]. eapply always_bind; [exact (par_quant v Hs Hne H4)|]. intros [s' a] [_ Ha]. cbn in *. eauto.
    - intros r (al & x & Er & a & -> & Ha). eauto.
  Qed.

  Theorem parallel_value sched ops rs q : filled (length ds0) ops -> fine ops -> items_of ops = map XFin rs -> (Z.of_nat (length rs) <= lim)%Z -> 0 <= q <= 1 ->
    always (fun r => exists al x, snd r = al ++ [XFin x] /\ bracketed rs (E (calls ops) (length rs)) q x)
      (exec PD (parallel_new D sched ds0) (ops ++ [Val (XFin q)])).
  Proof.
    intros H1 H2 H3 H4 Hq. eapply always_mono; [apply (@par_last sched ops rs (Val (XFin q)) H1 H2 H3 H4) with (P := fun y => exists x, y = XFin x /\ bracketed rs (E (calls ops) (length rs)) q x)|].
    - intros s Hne Hs. cbn [step]. eapply always_bind; [exact (par_val Hs Hne H4 Hq)|]. intros [s' a] [_ Ha]. cbn in *. eauto.
    - intros r (al & x & Er & a & -> & Ha). eauto.
  Qed.
End Par.
