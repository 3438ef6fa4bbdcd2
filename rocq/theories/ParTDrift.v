(** Accuracy of a ParTDigest after any history, in exact arithmetic. *)
From Coq Require Import List Arith ZArith Lia Bool Permutation Sorted Reals Lra.
From Flocq Require Import Core.
From Verif Require Import Base Floats XReal Digest TDigest Spec FloatFacts History ChunkProofs TDigestProofs TDigestProofs2 TDigestExact TDigestExactQ TDigestExactV TDigestHist TDigestTop ScaleFunctions ScaleProofs TDigestScale TDigestAcc TDigestAcc2 TDigestParts TDigestAt TDigestAt2 TDigestCap TDigestDrift ParTDProofs ParTDSched.
Set Implicit Arguments.
Local Open Scope R_scope.

Lemma dinv_view s pre cs lo hi : dinv s pre cs lo hi -> tview s cs lo hi.
Proof. intros []. constructor; assumption. Qed.

(** ** Specification *)
(** deliveries to the inner digest, counting the one made by a query *)
Definition deliveries (capacity : nat) (ops : list (op xr)) : nat := (length (batches capacity [] ops) + length (rest (held capacity [] ops)))%nat.
(** lost per item by making centroids of chunks of [t] items *)
Definition chunk_loss (lam : R -> R) (t : nat) : R := if Rle_dec (lam (INR t) * INR t) 1 then 0 else lam (INR t).
Definition par_error (lam : R -> R) (threads capacity : nat) (ops : list (op xr)) (rs : list R) : R :=
  INR (deliveries capacity ops) * (cap lam (length rs) - 1) + chunk_loss lam threads * size rs + Rmax 1 (cap lam (length rs) / 2).

Section Drift.
  Variables (cfg : tcfg xr) (k inv : xr -> xr -> xr -> xr) (cf : R) (lam : R -> R).
  Hypothesis HS : with_scale cfg k inv cf.
  Hypothesis Hmono : forall n n', 1 <= n -> n <= n' -> lam n <= lam n'.
  Hypothesis Hpos : forall n, 1 <= n -> 0 <= lam n.
  Hypothesis Hstep : forall n, 1 <= n -> step_width k inv cf n (lam n).
  Let Hlib : lib_ok cfg := proj1 HS.
  Let Hcf : tc_cf cfg = XFin cf := proj2 (proj2 (proj2 HS)).

  Lemma merge_drift d old buf n w : t_centroids d = map emb old -> Forall heavy old -> Forall heavy buf -> buf ++ old <> [] ->
    Wt (buf ++ old) = n -> 1 <= w -> (forall c, In c (buf ++ old) -> snd c <= w) -> lam n * n <= w ->
    exists s' cs, add_centroid_buffer cfg d (map emb buf) = Ret s' /\ listed s' cs /\ (forall c, In c cs -> snd c <= w) /\
      forall p, half_line p -> Rabs (Wp p cs - (Wp p buf + Wp p old)) <= w - 1.
  Proof.
    intros E1 E2 Hb Hne EW Hw1 Ho Hlw.
    destruct (merge_exact Hlib _ E1 E2 Hb Hne) as (sorted & rs & first & lst & A1 & A2 & A3 & A4 & A5 & A6 & A7 & A8 & A9).
    eexists. exists (map ravg rs). split; [exact A9|]. split; [reflexivity|].
    assert (1 <= n) as Hn. { rewrite <- EW. apply posint_ge, Wt_posint; [apply Forall_app; auto|exact Hne]. }
    rewrite EW in A8.
    assert (greedy (stepped (tc_scale cfg) (tc_inv cfg) cf n) n 0 rs) as HG.
    { apply (merges_greedy Hcf (n := n) ltac:(lra) A8) with (r0 := 0); auto. intros a. rewrite Rplus_0_l, xf0. reflexivity. }
    assert (Wt (concat rs) = n) as A7' by (rewrite A3, (Wt_perm A1); exact EW).
    assert (forall g, In g rs -> Wt g <= w) as HW.
    { intros g Hg. destruct (le_lt_dec 2 (length g)) as [H2'|H2'].
      - apply in_split in Hg as (pre & post & Eg). pose proof (@greedy_fits _ n rs 0 HG pre g post Eg H2') as HF. rewrite Rplus_0_l in HF.
        assert (forall x, Forall (Forall heavy) x -> 0 <= Wt (concat x)) as Hnn.
        { intros x Hx. apply Wt_nonneg. induction Hx; [constructor|]. cbn [concat]. now apply Forall_app. }
        rewrite Eg in A4, A7'. apply Forall_app in A4 as [Hp Hq]. pose proof (Forall_inv Hq) as Hhg. pose proof (Hnn _ Hp) as P1. pose proof (Hnn _ (Forall_inv_tail Hq)) as P2.
        rewrite concat_app, Wt_app in A7'. cbn [concat] in A7'. rewrite Wt_app in A7'.
        assert (g <> []) as Hgn by (intros ->; cbn in H2'; lia). pose proof (posint_ge (Wt_posint Hhg Hgn)) as P3.
        assert (0 < / n) as Hin by (apply Rinv_0_lt_compat; lra).
        assert ((Wt (concat pre) + Wt g) / n - Wt (concat pre) / n <= lam n) as HB.
        { pose proof (proj1 (proj2 HS)) as Ek. pose proof (proj1 (proj2 (proj2 HS))) as Ei. rewrite Ek, Ei in HF. refine (Hstep Hn _ _ _ HF).
          - unfold Rdiv; nra.
          - unfold Rdiv; nra.
          - apply Rmult_le_reg_r with n; [lra|]. unfold Rdiv. rewrite Rmult_assoc, Rinv_l by lra. lra. }
        apply (Rmult_le_compat_r n) in HB; [|lra]. replace (((Wt (concat pre) + Wt g) / n - Wt (concat pre) / n) * n) with (Wt g) in HB by (field; lra). lra.
      - rewrite Forall_forall in A5. pose proof (A5 g Hg) as Hgn. destruct g as [|c [|e g]]; [congruence| |cbn in H2'; lia].
        rewrite Wt_cons. unfold Wt. cbn [map sumR fold_right]. rewrite Rplus_0_r. apply Ho. eapply Permutation_in; [exact A1|]. rewrite <- A3. apply in_concat. exists [c]. split; [exact Hg|now left]. }
    split.
    - intros c Hc. apply in_map_iff in Hc as (g & <- & Hg). cbn [ravg snd]. exact (HW g Hg).
    - intros p Hp. pose proof (@regroup p rs w Hp A4 A5) as HR. rewrite A3 in HR. specialize (HR A2 Hw1 HW). rewrite (Wp_perm p A1), Wp_app in HR. exact HR.
  Qed.

  Lemma cap_1 m : 1 <= cap lam m.
  Proof. apply Rmax_l. Qed.
  Lemma cap_le m m' : (1 <= m)%nat -> (m <= m')%nat -> cap lam m <= cap lam m'.
  Proof.
    intros H1 H2. unfold cap. apply le_INR in H1, H2. change (INR 1) with 1 in H1. pose proof (Hpos H1). pose proof (Hmono H1 H2).
    apply Rle_max_compat_l. nra.
  Qed.

  (** ** one delivery *)
  Definition lost (css : list (list R)) : R := sumR (map (fun c => cap lam (length c) - 1) css).

  Lemma chunk_drift c : c <> [] -> exists d cs, td_add_buffer cfg td_new (map XFin c) = Ret d /\ listed d cs /\ Forall heavy cs /\ Wt cs = size c /\
    (forall x, In x cs -> snd x <= cap lam (length c)) /\ forall p, half_line p -> Rabs (Wp p cs - cnt p c) <= cap lam (length c) - 1.
  Proof.
    intros Hc. assert (drifted (@td_new xr xr_ops) [] 1 0) as H0.
    { split; [left; repeat split; reflexivity|]. intros cs Hcs. unfold listed in Hcs. destruct cs; [|discriminate]. split; [intros x []|].
      intros p _. unfold Wp, cnt, Wt. cbn. rewrite Rminus_diag_eq, Rabs_R0 by reflexivity. lra. }
    destruct (@drift_merge cfg k inv cf lam HS td_new [] c 1 0 (Rle_refl 1) H0 Hc) as (d & E & H1 & H2).
    { intros _. apply Hstep. apply size_pos. exact Hc. }
    cbn [app] in *. rewrite Rplus_0_l in H2. change (Rmax 1 (lam (size c) * size c)) with (cap lam (length c)) in H2.
    destruct H1 as [(E0 & _)|(_ & cs & lo & hi & HI)]; [congruence|]. destruct (H2 cs (ti_cs HI)) as [A B].
    exists d, cs. split; [exact E|]. split; [exact (ti_cs HI)|]. split; [exact (ti_heavy HI)|]. split; [exact (ti_wt HI)|]. split; [exact A|exact B].
  Qed.

  Lemma chunks_drift css : Forall (fun c => c <> []) css -> forall ds, mapM (fun chunk => td_add_buffer cfg td_new chunk) (map (map XFin) css) = Ret ds ->
    exists all, flat_map t_centroids ds = map emb all /\ Forall heavy all /\ Wt all = size (concat css) /\
      (forall x, In x all -> exists c, In c css /\ snd x <= cap lam (length c)) /\ forall p, half_line p -> Rabs (Wp p all - cnt p (concat css)) <= lost css.
  Proof.
    induction 1 as [|c css Hc _ IH]; intros ds E; cbn [map mapM] in E.
    - injection E as <-. exists []. split; [reflexivity|]. split; [constructor|]. split; [reflexivity|]. split; [intros x []|].
      intros p _. unfold Wp, cnt, Wt, lost. cbn. rewrite Rminus_diag_eq, Rabs_R0 by reflexivity. lra.
    - destruct (chunk_drift Hc) as (d & cs & E1 & A1 & A2 & A3 & A4 & A5). rewrite E1 in E. cbn [bind] in E.
      apply bind_ret in E as (ds' & E2 & E). injection E as <-. destruct (IH ds' E2) as (all & B1 & B2 & B3 & B4 & B5).
      exists (cs ++ all). cbn [flat_map concat]. rewrite A1, B1, map_app. split; [reflexivity|]. split; [now apply Forall_app|].
      split; [rewrite Wt_app, A3, B3, size_app; reflexivity|]. split.
      + intros x Hx. apply in_app_or in Hx as [Hx|Hx]; [exists c; split; [now left|auto]|]. destruct (B4 x Hx) as (c' & H1 & H2). exists c'. split; [now right|exact H2].
      + intros p Hp. rewrite Wp_app, cnt_app. unfold lost. cbn [map sumR fold_right]. fold (sumR (map (fun c => cap lam (length c) - 1) css)). fold (lost css).
        specialize (A5 p Hp). specialize (B5 p Hp).
        replace (Wp p cs + Wp p all - (cnt p c + cnt p (concat css))) with ((Wp p cs - cnt p c) + (Wp p all - cnt p (concat css))) by ring.
        eapply Rle_trans; [apply Rabs_triang|]. lra.
  Qed.

  Definition pdrifted (d : tdigest xr) (pre : list R) (e : R) : Prop :=
    dexact d pre /\ forall cs, listed d cs -> (forall c, In c cs -> snd c <= cap lam (length pre)) /\ forall p, half_line p -> Rabs (Wp p cs - cnt p pre) <= e.

  Variable threads : nat.
  Hypothesis Hth : (1 <= threads)%nat.

  (** what one chunk loses, per item *)
  Lemma loss_pos : 0 <= chunk_loss lam threads.
  Proof. unfold chunk_loss. destruct (Rle_dec _ _); [lra|]. apply Hpos. apply (le_INR 1) in Hth. exact Hth. Qed.
  Lemma chunk_cost c : c <> [] -> (length c <= threads)%nat -> cap lam (@length R c) - 1 <= chunk_loss lam threads * size c.
  Proof.
    intros Hc Hl. pose proof (size_pos Hc) as H1. apply le_INR in Hl. pose proof (Hpos H1) as P1. pose proof (Hmono H1 Hl) as M1. unfold chunk_loss, cap.
    destruct (Rle_dec (lam (INR threads) * INR threads) 1) as [L|L].
    - rewrite Rmax_left; [lra|]. eapply Rle_trans; [|exact L]. apply Rmult_le_compat; lra.
    - unfold Rmax. destruct (Rle_dec 1 (lam (size c) * size c)); [|nra]. assert (lam (size c) * size c <= lam (INR threads) * size c) by (apply Rmult_le_compat_r; lra). lra.
  Qed.
  Lemma lost_le css : Forall (fun c => c <> [] /\ (length c <= threads)%nat) css -> lost css <= chunk_loss lam threads * size (concat css).
  Proof.
    induction 1 as [|c css [Hc Hl] _ IH]; unfold lost; cbn [map sumR fold_right concat].
    - cbn. pose proof loss_pos. lra.
    - fold (sumR (map (fun c => cap lam (length c) - 1) css)). fold (lost css). rewrite size_app. pose proof (chunk_cost Hc Hl). lra.
  Qed.

  Lemma deliver_drift d pre e b : pdrifted d pre e -> b <> [] -> exists d', deliver cfg threads td_new d (map XFin b) = Ret d' /\
    pdrifted d' (pre ++ b) (e + chunk_loss lam threads * size b + (cap lam (length (pre ++ b)) - 1)).
  Proof.
    intros [Hd HC] Hb. unfold deliver.
    destruct (@flush_exact cfg Hlib threads Hth {| pt_digest := d; pt_buffer := map XFin b |} pre b Hd eq_refl Hb) as (s' & cs & lo & hi & E & _ & HI & _).
    rewrite E. exists (pt_digest s'). split; [reflexivity|].
    assert (pre ++ b <> []) as Hne by (intros F; apply app_eq_nil in F; tauto).
    split; [right; split; [exact Hne|exists cs, lo, hi; exact HI]|].
    (* run the flush again *)
    unfold pt_flush in E. cbn [pt_buffer pt_digest] in E. destruct (map XFin b) as [|x0 b0] eqn:E0; [apply map_eq_nil in E0; congruence|]. rewrite <- E0 in E. clear x0 b0 E0.
    assert (chunks threads (map XFin b) = Ret (chunks_list threads (map XFin b))) as Ech by (unfold chunks; destruct threads; [lia|reflexivity]).
    rewrite Ech in E. cbn [bind] in E.
    pose proof (@chunks_list_concat _ threads (map XFin b) Hth) as Ec. pose proof (@chunks_list_bounds _ threads (map XFin b) Hth) as Hbd.
    destruct (concat_map_inv _ _ _ Ec) as (css & Ecs & Ecc). rewrite Ecs in Hbd, E.
    assert (Forall (fun c => c <> [] /\ (length c <= threads)%nat) css) as Hcl.
    { rewrite Forall_map in Hbd. eapply Forall_impl; [|exact Hbd]. intros c Hc. cbn beta in Hc. rewrite map_length in Hc. split; [intros ->; cbn in Hc; lia|lia]. }
    assert (Forall (fun c => c <> []) css) as Hcne by (eapply Forall_impl; [|exact Hcl]; cbn beta; tauto).
    apply bind_ret in E as (ds & E1 & E). do 4 (apply bind_ret in E as (? & ? & E)). apply bind_ret in E as (d' & E2 & E). injection E as <-. cbn [pt_digest] in *.
    destruct (chunks_drift Hcne E1) as (all & B1 & B2 & B3 & B4 & B5). rewrite B1 in E2. rewrite Ecc in B3, B5.
    assert (exists old, listed d old /\ Forall heavy old /\ Wt old = size pre) as (old & O1 & O2 & O3).
    { destruct Hd as [(-> & E)|(_ & c0 & l0 & h0 & I)].
      - exists []. split; [exact E|]. split; [constructor|reflexivity].
      - exists c0. split; [exact (di_cs I)|]. split; [exact (di_heavy I)|exact (di_wt I)]. }
    destruct (HC old O1) as [C1 C2].
    assert (Wt (all ++ old) = size (pre ++ b)) as EW by (rewrite Wt_app, size_app, B3, O3; ring).
    assert (all ++ old <> []) as Hao. { intros F. rewrite F in EW. pose proof (size_pos Hne) as X. unfold Wt in EW. cbn in EW. lra. }
    match type of E2 with add_centroid_buffer _ ?d0 _ = _ => destruct (@merge_drift d0 old all (size (pre ++ b)) (cap lam (length (pre ++ b)))) as (s2 & cs2 & F1 & F2 & F3 & F4) end.
    - exact O1.
    - exact O2.
    - exact B2.
    - exact Hao.
    - exact EW.
    - apply cap_1.
    - intros c Hc. apply in_app_or in Hc as [Hc|Hc].
      + destruct (B4 c Hc) as (c' & Hc' & L). eapply Rle_trans; [exact L|]. apply cap_le.
        * rewrite Forall_forall in Hcne. specialize (Hcne c' Hc'). destruct c'; [congruence|cbn; lia].
        * rewrite app_length. rewrite <- Ecc. apply in_split in Hc' as (u & v & ->). rewrite concat_app, app_length. cbn [concat]. rewrite app_length. lia.
      + eapply Rle_trans; [exact (C1 c Hc)|]. apply cap_le; [|rewrite app_length; lia].
        destruct pre as [|px pre0]; [|cbn; lia]. exfalso. cbn in O3. destruct old as [|oy old0]; [destruct Hc|]. pose proof (posint_ge (Forall_inv O2)) as X. rewrite Wt_cons in O3. pose proof (Wt_nonneg (Forall_inv_tail O2)). lra.
    - apply Rmax_r.
    - pose proof (eq_trans (eq_sym E2) F1) as G. injection G as ->. intros cs' Hcs'. rewrite (listed_fun Hcs' F2) in *. split; [exact F3|].
      intros p Hp. specialize (F4 p Hp). specialize (B5 p Hp). specialize (C2 p Hp). rewrite cnt_app. pose proof (lost_le Hcl) as HL. rewrite Ecc in HL.
      replace (Wp p cs2 - (cnt p pre + cnt p b)) with ((Wp p cs2 - (Wp p all + Wp p old)) + ((Wp p all - cnt p b) + (Wp p old - cnt p pre))) by ring.
      eapply Rle_trans; [apply Rabs_triang|]. eapply Rle_trans; [apply Rplus_le_compat_l, Rabs_triang|]. lra.
  Qed.

  (** ** all deliveries *)
  Lemma deliveries_drift N bs : forall d pre e, pdrifted d pre e -> Forall (fun b => b <> []) bs -> (length (pre ++ concat bs) <= N)%nat ->
    exists d', foldM (deliver cfg threads td_new) d (map (map XFin) bs) = Ret d' /\
      pdrifted d' (pre ++ concat bs) (e + chunk_loss lam threads * size (concat bs) + size bs * (cap lam N - 1)).
  Proof.
    induction bs as [|b bs IH]; intros d pre e Hd Hne HN; cbn [map foldM concat].
    - exists d. split; [reflexivity|]. rewrite app_nil_r. destruct Hd as [H1 H2]. split; [exact H1|]. intros cs Hcs. destruct (H2 cs Hcs) as [A B]. split; [exact A|].
      intros p Hp. specialize (B p Hp). cbn. lra.
    - pose proof (Forall_inv Hne) as Hb. cbn beta in Hb. destruct (deliver_drift Hd Hb) as (d1 & E1 & H1). rewrite E1. cbn [bind concat] in *.
      rewrite app_assoc in HN |- *. destruct (IH d1 (pre ++ b) _ H1 (Forall_inv_tail Hne) HN) as (d2 & E2 & H2). exists d2. split; [exact E2|].
      destruct H2 as [G1 G2]. split; [exact G1|]. intros cs Hcs. destruct (G2 cs Hcs) as [A B]. split; [exact A|]. intros p Hp. specialize (B p Hp).
      cbn [length]. rewrite S_INR, size_app.
      assert (cap lam (length (pre ++ b)) <= cap lam N) as Hc.
      { apply cap_le; [destruct b; [congruence|rewrite app_length; cbn; lia]|]. rewrite app_length in HN. lia. }
      lra.
  Qed.

  Lemma batches_split (F : Type) c ops : forall b : list F, Forall (fun l => l <> []) (batches c b ops).
  Proof.
    assert (forall l : list F, Forall (fun l => l <> []) (full c l)) as Hf.
    { intros l. unfold full. destruct (length l <=? c) eqn:E; constructor; [|constructor]. apply Nat.leb_gt in E. intros ->. cbn in E. lia. }
    assert (forall l : list F, Forall (fun l => l <> []) (rest l)) as Hr by (intros [|x l]; constructor; [discriminate|constructor]).
    induction ops as [|[x|l|v|q] ops IH]; intros b; cbn [batches]; [constructor| | | |]; apply Forall_app; auto.
  Qed.
  Lemma rest_ne (F : Type) (b : list F) : Forall (fun l => l <> []) (rest b) /\ concat (rest b) = b.
  Proof. destruct b; cbn; [auto|]. split; [constructor; [discriminate|constructor]|now rewrite app_nil_r]. Qed.

  (** ** the answers *)
  Variable capacity : nat.
  Notation PD := (par_t_digest cfg threads capacity td_new).

  Definition pq_answers (s : pardigest xr) (l : list R) (P : R -> R -> Prop) : Prop :=
    forall v, exists s' a, d_est_q PD s (XFin v) = Ret (s', XFin a) /\ P (size l * a) v.
  (** as for [TDigest], the last centroid being that after the delivery of the waiting items *)
  Definition pv_answers (s : pardigest xr) (l : list R) (P : R -> R -> Prop) : Prop :=
    forall s' cs last q, pt_flush cfg threads td_new s = Ret s' -> listed (pt_digest s') cs -> last_error cs = Some last -> (Z.of_nat (length l) < 2 ^ 64)%Z -> 0 <= q <= 1 -> clear_last l last q ->
      exists x, d_est_v PD s (XFin q) = Ret (s', XFin x) /\ P (size l * q) x.

  Theorem pt_drift ops rs r : items_of ops = map XFin rs -> rs <> [] -> exec PD (pt_new td_new) ops = Ret r ->
    pq_answers (fst r) rs (within rs (par_error lam threads capacity ops rs)) /\ pv_answers (fst r) rs (within rs (par_error lam threads capacity ops rs)).
  Proof.
    intros Hits Hne HE. destruct (pt_schedule _ HE) as (S1 & S2 & _ & S4). rewrite Hits in S4.
    set (bs := batches capacity [] ops) in *. set (h := held capacity [] ops) in *. rewrite S2 in S4.
    assert (concat (bs ++ rest h) = map XFin rs) as Ecat by (rewrite concat_app, (proj2 (rest_ne h)); exact S4).
    destruct (concat_map_inv _ _ _ Ecat) as (gs & Egs & Ers).
    assert (Forall (fun b => b <> []) gs) as Hgs.
    { assert (Forall (fun l : list xr => l <> []) (bs ++ rest h)) as H by (apply Forall_app; split; [apply batches_split|apply rest_ne]).
      rewrite Egs, Forall_map in H. eapply Forall_impl; [|exact H]. intros b Hb ->. now apply Hb. }
    assert (pdrifted td_new [] 0) as H0.
    { split; [left; auto|]. intros cs Hcs. unfold listed in Hcs. destruct cs; [|discriminate]. split; [intros x []|].
      intros p _. unfold Wp, cnt, Wt. cbn. rewrite Rminus_diag_eq, Rabs_R0 by reflexivity. lra. }
    destruct (@deliveries_drift (length rs) gs td_new [] 0 H0 Hgs) as (d & Ed & Hd); [cbn [app]; rewrite Ers; lia|].
    cbn [app] in Hd. rewrite Ers in Hd. rewrite <- Egs in Ed.
    assert (foldM (deliver cfg threads td_new) td_new (bs ++ rest h) = bind (foldM (deliver cfg threads td_new) td_new bs) (fun a => foldM (deliver cfg threads td_new) a (rest h))) as Esp by apply foldM_split.
    rewrite Esp, S1 in Ed. cbn [bind] in Ed.
    assert (size gs = INR (deliveries capacity ops)) as Hlen.
    { unfold deliveries. fold bs h. rewrite <- app_length, Egs, map_length. reflexivity. }
    rewrite Hlen in Hd. clear Hlen Esp Egs Hgs Ecat S1 S4 HE.
    (* the flush before the query *)
    assert (exists s', pt_flush cfg threads td_new (fst r) = Ret s' /\ pt_digest s' = d) as (s' & Ef & Es').
    { destruct (fst r) as [d0 b0]. cbn [pt_digest pt_buffer] in *. rewrite S2. destruct h as [|y h'].
      - cbn [rest foldM] in Ed. injection Ed as ->. eexists. split; reflexivity.
      - cbn [rest foldM] in Ed. apply bind_ret in Ed as (d1 & E1 & E2). injection E2 as ->. unfold deliver, liftM in E1. apply bind_ret in E1 as (s' & E1 & E2).
        exists s'. split; [exact E1|]. now injection E2. }
    destruct Hd as [[(E & _)|(_ & cs & lo & hi & I)] HC]; [congruence|]. destruct (HC cs (di_cs I)) as [Ho Hp]. pose proof (dinv_view I) as HI.
    set (w := cap lam (length rs)) in *.
    assert (1 <= Rmax 1 (w / 2)) as M1 by apply Rmax_l.
    assert (forall c, In c cs -> snd c / 2 <= Rmax 1 (w / 2)) as HM by (intros c Hc; specialize (Ho c Hc); eapply Rle_trans; [|apply Rmax_r]; lra).
    pose proof (size_pos Hne) as Hn.
    assert (forall x e, close (Rmax 1 (w / 2)) x 0 e cs -> within rs (par_error lam threads capacity ops rs) e x) as Hw'.
    { intros x e He. unfold close in He. unfold within, par_error. fold w. pose proof (Hp _ (@ltb_half x)) as H1. pose proof (Hp _ (@leb_half x)) as H2.
      change (cnt (ltb x) rs) with (below x rs) in H1. change (cnt (leb x) rs) with (upto x rs) in H2.
      apply Rabs_le_inv in H1, H2. lra. }
    split.
    - intros v. exists s', (rq cs lo hi v / Wt cs). cbn [d_est_q par_t_digest]. rewrite Ef. cbn [bind]. rewrite Es', (est_q_value HI v). cbn [bind]. split; [reflexivity|]. apply Hw'.
      replace (size rs * (rq cs lo hi v / Wt cs)) with (rq cs lo hi v) by (rewrite (di_wt I); field; lra).
      exact (@rq_close _ M1 d cs lo hi HI HM v).
    - intros s2 cs' last q Ef2 Hcs Hla H64 Hq Hc. rewrite Ef in Ef2. injection Ef2 as <-. rewrite Es' in Hcs. rewrite (listed_fun Hcs (di_cs I)) in *.
      assert (last = lastc cs) as ->. { pose proof (eq_trans (eq_sym (cs_last (di_ne I))) Hla) as E. now injection E. }
      assert (clear_of_last cs (Wt cs * q)) as Hcl by (unfold clear_of_last; rewrite (di_wt I); exact Hc).
      exists (rv cs lo hi (Wt cs * q)). cbn [d_est_v par_t_digest]. rewrite Ef. cbn [bind]. rewrite Es'. split.
      + rewrite (est_v_value HI Hq); [reflexivity| |exact Hcl]. rewrite (di_wt I), INR_IZR_INZ. now apply IZR_lt.
      + apply Hw'. rewrite <- (di_wt I). apply (@rv_close _ M1 d cs lo hi HI HM); [|exact Hcl]. rewrite (di_wt I). nra.
  Qed.
End Drift.

(** ** the scale functions *)
Section PerScale.
  Variables (cfg : tcfg xr) (cf : R) (threads capacity : nat) (ops : list (op xr)) (rs : list R) (r : pardigest xr * list xr).
  Hypothesis Hc : 0 < cf.
  Hypothesis Hth : (1 <= threads)%nat.
  Hypothesis Hits : items_of ops = map XFin rs.
  Hypothesis Hne : rs <> [].
  Hypothesis Hrun : exec (par_t_digest cfg threads capacity td_new) (pt_new td_new) ops = Ret r.
  Notation good lam := (pq_answers cfg threads capacity (fst r) rs (within rs (par_error lam threads capacity ops rs)) /\
                        pv_answers cfg threads capacity (fst r) rs (within rs (par_error lam threads capacity ops rs))).
  Let ln4 : forall a, 0 < a -> 0 < ln 10 / a.
  Proof. intros a Ha. pose proof ln10_pos. apply Rdiv_lt_0_compat; lra. Qed.
  Theorem pdrift_k0 : with_scale cfg k0 inv_k0 cf -> good (fun _ => 2 / cf).
  Proof.
    intros H. refine (@pt_drift cfg _ _ cf _ H _ _ _ threads Hth capacity ops rs r Hits Hne Hrun); intros; [lra|apply Rlt_le, Rdiv_lt_0_compat; lra|]. now apply k0_width.
  Qed.
  Theorem pdrift_k1 : with_scale cfg k1 inv_k1 cf -> good (fun _ => PI / cf).
  Proof.
    intros H. refine (@pt_drift cfg _ _ cf _ H _ _ _ threads Hth capacity ops rs r Hits Hne Hrun); intros; [lra|apply Rlt_le, Rdiv_lt_0_compat; [apply PI_RGT_0|lra]|]. now apply k1_width.
  Qed.
  Theorem pdrift_k2 : with_scale cfg k2 inv_k2 cf -> 0 < den 24 cf 1 -> good (fun n => ln 10 / 4 * (den 24 cf n / cf)).
  Proof.
    intros H Hd. refine (@pt_drift cfg _ _ cf _ H _ _ _ threads Hth capacity ops rs r Hits Hne Hrun).
    - intros n n' H1 H2. apply (@den_frac 24 cf cf n n' Hc Hc H1 H2 Hd). apply ln4. lra.
    - intros n H1. apply (@den_frac 24 cf cf n n Hc Hc H1 (Rle_refl n) Hd). apply ln4. lra.
    - intros n H1. apply k2_width; [exact Hc|lra|]. pose proof (@den_mono 24 cf 1 n Hc (Rle_refl 1) H1). lra.
  Qed.
  Theorem pdrift_k3 : with_scale cfg k3 inv_k3 cf -> 0 < den 21 cf 1 -> good (fun n => ln 10 / 2 * (den 21 cf n / cf)).
  Proof.
    intros H Hd. refine (@pt_drift cfg _ _ cf _ H _ _ _ threads Hth capacity ops rs r Hits Hne Hrun).
    - intros n n' H1 H2. apply (@den_frac 21 cf cf n n' Hc Hc H1 H2 Hd). apply ln4. lra.
    - intros n H1. apply (@den_frac 21 cf cf n n Hc Hc H1 (Rle_refl n) Hd). apply ln4. lra.
    - intros n H1. apply k3_width; [exact Hc|lra|]. pose proof (@den_mono 21 cf 1 n Hc (Rle_refl 1) H1). lra.
  Qed.
  Theorem pdrift_k2_asym : with_scale cfg k2_asym inv_k2_asym cf -> 0 < den 24 (cf * 2) 1 -> good (fun n => ln 10 / 4 * (den 24 (cf * 2) n / cf)).
  Proof.
    intros H Hd. assert (0 < cf * 2) as Hc2 by lra. refine (@pt_drift cfg _ _ cf _ H _ _ _ threads Hth capacity ops rs r Hits Hne Hrun).
    - intros n n' H1 H2. apply (@den_frac 24 (cf * 2) cf n n' Hc2 Hc H1 H2 Hd). apply ln4. lra.
    - intros n H1. apply (@den_frac 24 (cf * 2) cf n n Hc2 Hc H1 (Rle_refl n) Hd). apply ln4. lra.
    - intros n H1. apply k2_asym_width; [lra|exact Hc|]. pose proof (@den_mono 24 (cf * 2) 1 n Hc2 (Rle_refl 1) H1). lra.
  Qed.
End PerScale.

(** the terms of the bound *)
Lemma par_terms lam threads capacity ops rs :
  par_error lam threads capacity ops rs = INR (deliveries capacity ops) * (Rmax 1 (lam (size rs) * size rs) - 1) + chunk_loss lam threads * size rs + Rmax 1 (Rmax 1 (lam (size rs) * size rs) / 2) /\
  deliveries capacity ops = (length (batches capacity [] ops) + length (rest (held capacity [] ops)))%nat /\
  (lam (INR threads) * INR threads <= 1 -> chunk_loss lam threads = 0) /\ (1 < lam (INR threads) * INR threads -> chunk_loss lam threads = lam (INR threads)).
Proof. split; [reflexivity|]. split; [reflexivity|]. unfold chunk_loss. split; intros H; destruct (Rle_dec _ _); lra. Qed.

(** while everything fits the buffer, there is one delivery *)
Lemma one_delivery capacity (ops : list (op xr)) : items_of ops <> [] -> (length (items_of ops) <= capacity)%nat -> Forall (fun o => match o with Val _ | Quant _ => False | _ => True end) ops -> deliveries capacity ops = 1%nat.
Proof.
  intros Hne Hl Hq. unfold deliveries.
  assert (forall b, (length (b ++ items_of ops) <= capacity)%nat -> batches capacity b ops = [] /\ held capacity b ops = b ++ items_of ops) as H.
  { clear Hne Hl. induction Hq as [|o ops Ho Hq IH]; intros b Hb; cbn [batches held items_of] in *; [now rewrite app_nil_r|].
    destruct o as [x|l|v|q]; try destruct Ho; cbn [batches held items_of] in *; try change (x :: items_of ops) with ([x] ++ items_of ops) in *; rewrite app_assoc in Hb;
      unfold full, keep;
      match type of Hb with (length (?u ++ _) <= _)%nat => assert (length u <= capacity)%nat as Hu by (rewrite app_length in Hb; lia) end;
      apply Nat.leb_le in Hu; rewrite Hu; cbn [app]; destruct (IH _ Hb) as [E1 E2]; rewrite E1, E2, <- app_assoc; auto. }
  destruct (H [] Hl) as [-> ->]. cbn [app length]. destruct (items_of ops); [congruence|reflexivity].
Qed.
