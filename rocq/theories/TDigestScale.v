(** How the scale function shapes the centroids: their width and their number. *)
From Coq Require Import List Arith ZArith Lia Bool Permutation Sorted Reals Lra Psatz.
From Flocq Require Import Core.
From Verif Require Import Base Floats XReal Digest TDigest ScaleFunctions Spec FloatFacts History TDigestProofs TDigestProofs2 TDigestExact TDigestExactQ TDigestExactV TDigestHist TDigestTop ScaleProofs.
Set Implicit Arguments.
Local Open Scope R_scope.

(** ** The greedy grouping over the reals *)

(** [L q]: how far a group starting at quantile q may reach *)
Fixpoint greedy (L : R -> xr) (n w0 : R) (rs : list (list rcen)) : Prop :=
  match rs with
  | [] => True
  | g :: rest =>
    ((2 <= length g)%nat -> fle (XFin ((w0 + Wt g) / n)) (L (w0 / n)) = true) /\
    match rest with
    | (c :: _) :: _ => fle (XFin ((w0 + Wt g + snd c) / n)) (L (w0 / n)) = false
    | _ => True
    end /\
    greedy L n (w0 + Wt g) rest
  end.

Lemma fle_shift a w (l : xr) : fle (XFin a) (fsub l (XFin w)) = fle (XFin (w + a)) l.
Proof.
  destruct l as [|[]|r]; cbn [fsub xr_ops xsub xadd xneg]; try reflexivity.
  apply eq_true_iff_eq. rewrite !xle_b. lra.
Qed.
Lemma fle_scale a n (l : xr) : 0 < n -> fle (XFin a) (fmul l (XFin n)) = fle (XFin (a / n)) l.
Proof.
  intros Hn. destruct l as [|[]|r].
  - reflexivity.
  - rewrite xmul_inf_pos' by auto. reflexivity.
  - rewrite xmul_inf_pos' by auto. reflexivity.
  - rewrite xmul_fin. apply eq_true_iff_eq. rewrite !xle_b. split; intros H.
    + apply Rmult_le_reg_r with n; auto. unfold Rdiv. rewrite Rmult_assoc, Rinv_l; lra.
    + replace a with (a / n * n) by (field; lra). apply Rmult_le_compat_r; lra.
Qed.

Lemma agg_w_emb g : Forall heavy g -> g <> [] -> agg_w (map emb g) = XFin (Wt g).
Proof.
  intros Hh Hg. pose proof (agg_emb Hh Hg) as E. apply (f_equal weight) in E. exact E.
Qed.

Section Grouping.
  Variables (cfg : tcfg xr) (cf : R).
  Hypothesis Hcf : tc_cf cfg = XFin cf.
  Notation L n := (stepped (tc_scale cfg) (tc_inv cfg) cf n).

  Lemma w_limit_le a n w0 : 0 < n -> fle (XFin a) (w_limit cfg (XFin n) (XFin w0)) = fle (XFin (a / n)) (L n (w0 / n)).
  Proof. intros Hn. unfold w_limit, stepped. rewrite fle_scale, Hcf, xdiv_fin by lra. reflexivity. Qed.

  Lemma merges_greedy n gs w0 lim : 0 < n -> merges cfg (XFin n) w0 lim gs -> forall rs r0,
    gs = map (map emb) rs -> w0 = XFin r0 -> (forall a, fle (XFin a) lim = fle (XFin (r0 + a)) (w_limit cfg (XFin n) (XFin r0))) ->
    Forall (Forall heavy) rs -> greedy (L n) n r0 rs.
  Proof.
    intros Hn. induction 1 as [w0 lim g Hg Hl|w0 lim g c g' gs Hg Hl Hf H IH]; intros rs r0 E E0 El Hh.
    - destruct rs as [|g1 [|? ?]]; try discriminate. injection E as ->. cbn [greedy]. split; [|auto].
      intros H2. rewrite map_length in Hl. specialize (Hl H2).
      assert (g1 <> []) as Hg1 by (intros ->; now apply Hg).
      rewrite agg_w_emb, El, w_limit_le in Hl by (auto; now inversion Hh). exact Hl.
    - destruct rs as [|g1 [|g2 rs]]; try discriminate. injection E as -> Eg2 Egs.
      destruct g2 as [|c2 g2]; [discriminate|]. cbn [map] in Eg2. injection Eg2 as -> ->.
      assert (g1 <> []) as Hg1 by (intros ->; now apply Hg).
      assert (Forall heavy g1) as Hh1 by now inversion Hh.
      rewrite !agg_w_emb in * by auto. rewrite map_length in Hl.
      change (greedy (L n) n r0 (g1 :: (c2 :: g2) :: rs)) with
        (((2 <= length g1)%nat -> fle (XFin ((r0 + Wt g1) / n)) (L n (r0 / n)) = true) /\
         fle (XFin ((r0 + Wt g1 + snd c2) / n)) (L n (r0 / n)) = false /\ greedy (L n) n (r0 + Wt g1) ((c2 :: g2) :: rs)).
      split; [|split].
      + intros H2. specialize (Hl H2). rewrite El, w_limit_le in Hl by auto. exact Hl.
      + cbn [emb weight] in Hf. rewrite xadd_fin, El, w_limit_le in Hf by auto. rewrite Rplus_assoc. exact Hf.
      + apply IH; [rewrite Egs; reflexivity|rewrite E0, xadd_fin; reflexivity| |now inversion Hh].
        intros a. rewrite E0, xadd_fin. apply fle_shift.
  Qed.

  Hypothesis Hlib : lib_ok cfg.

  (** what one merge does to a digest in a good state *)
  Lemma merge_groups s its l : texact s its -> its ++ l <> [] ->
    exists s' old rs, td_add_buffer cfg s (map XFin l) = Ret s' /\ listed s old /\
      Permutation (concat rs) (map ucen l ++ old) /\ rsorted (concat rs) /\ Forall (fun g => g <> []) rs /\
      listed s' (map ravg rs) /\ Wt (concat rs) = INR (length (its ++ l)) /\ Forall (Forall heavy) rs /\
      greedy (L (INR (length (its ++ l)))) (INR (length (its ++ l))) 0 rs.
  Proof.
    intros Hs Hne. unfold td_add_buffer. rewrite units_emb.
    assert (exists old, t_centroids s = map emb old /\ Forall heavy old /\ Wt old = INR (length its)) as (old & E1 & E2 & E3).
    { destruct Hs as [(-> & Hc & _)|(_ & cs & lo & hi & HI)].
      - exists []. repeat split; auto.
      - exists cs. split; [exact (ti_cs HI)|]. split; [exact (ti_heavy HI)|exact (ti_wt HI)]. }
    assert (Wt (map ucen l ++ old) = INR (length (its ++ l))) as EW.
    { rewrite Wt_app, (proj1 (ucen_sums l)), E3, app_length, plus_INR. ring. }
    assert (map ucen l ++ old <> []) as Hne'.
    { intros E. rewrite E in EW. unfold Wt in EW. cbn in EW. symmetry in EW. apply (INR_eq _ 0) in EW.
      apply length_zero_iff_nil in EW. congruence. }
    destruct (merge_exact Hlib _ E1 E2 (ucen_heavy l) Hne') as (sorted & rs & first & lst & A1 & A2 & A3 & A4 & A5 & A6 & A7 & A8 & A9).
    exists {| t_centroids := map emb (map ravg rs); t_min := fmin (t_min s) (XFin (fst first)); t_max := fmax (t_max s) (XFin (fst lst));
              t_tick := S (t_tick s) |}, old, rs.
    split; [exact A9|]. split; [exact E1|]. rewrite A3. split; [exact A1|]. split; [exact A2|]. split; [exact A5|]. split; [reflexivity|].
    split; [now rewrite (Wt_perm A1)|]. split; [exact A4|]. rewrite EW in A8.
    assert (0 < INR (length (its ++ l))) as Hn. { apply lt_0_INR. destruct (its ++ l); [congruence|cbn; lia]. }
    apply (merges_greedy Hn A8) with (r0 := 0); auto.
    intros a. rewrite Rplus_0_l, xf0. reflexivity.
  Qed.

  Lemma greedy_fits L n : forall rs w0, greedy L n w0 rs -> forall pre g post, rs = pre ++ g :: post -> (2 <= length g)%nat ->
    fle (XFin ((w0 + Wt (concat pre) + Wt g) / n)) (L ((w0 + Wt (concat pre)) / n)) = true.
  Proof.
    induction rs as [|g0 rs IH]; intros w0 H pre g post E Hg; [destruct pre; discriminate|].
    destruct H as (H1 & _ & H3). destruct pre as [|p pre].
    - injection E as -> ->. cbn [concat]. unfold Wt at 1 3. cbn [map sumR fold_right]. rewrite Rplus_0_r. auto.
    - injection E as -> E. specialize (IH _ H3 pre g post E Hg). cbn [concat]. rewrite Wt_app, <- Rplus_assoc. exact IH.
  Qed.

  (** [spans n w w']: from rank w to rank w' of n the scale function grows by at most one *)
  Definition spans (n w w' : R) : Prop :=
    fle (tc_scale cfg (XFin (w' / n)) (tc_cf cfg) (XFin n)) (fadd (tc_scale cfg (XFin (w / n)) (tc_cf cfg) (XFin n)) f1) = true.

  Lemma greedy_spans n rs : 0 < n -> galois (tc_scale cfg) (tc_inv cfg) cf n -> Forall (Forall heavy) rs -> Wt (concat rs) = n ->
    greedy (L n) n 0 rs -> forall pre g post, rs = pre ++ g :: post -> (2 <= length g)%nat ->
    spans n (Wt (concat pre)) (Wt (concat pre) + Wt g).
  Proof.
    intros Hn HG Hh HW H pre g post E Hg. pose proof (@greedy_fits _ _ _ _ H pre g post E Hg) as HF. rewrite Rplus_0_l in HF.
    unfold spans. rewrite Hcf. rewrite E, concat_app in HW. cbn [concat] in HW. rewrite !Wt_app in HW.
    rewrite E in Hh. apply Forall_app in Hh as [Hp Hh]. inversion Hh as [|? ? Hhg Hpo]; subst.
    assert (forall l, Forall (Forall heavy) l -> 0 <= Wt (concat l)) as Hnn.
    { intros l Hl. apply Wt_nonneg. induction Hl; [constructor|]. cbn [concat]. now apply Forall_app. }
    pose proof (Hnn _ Hp). pose proof (Hnn _ Hpo).
    assert (1 <= Wt g). { apply posint_ge, Wt_posint; auto. intros ->. cbn in Hg. lia. }
    apply HG; auto.
    - apply Rmult_le_pos; auto. left. now apply Rinv_0_lt_compat.
    - unfold Rdiv. apply Rmult_lt_compat_r; [now apply Rinv_0_lt_compat|lra].
    - apply Rmult_le_reg_r with (Wt (concat pre) + (Wt g + Wt (concat post))); auto. unfold Rdiv. rewrite Rmult_assoc, Rinv_l; lra.
  Qed.

  (** ** Histories *)
  Theorem td_widths ops rs0 l : items_of ops = map XFin rs0 -> rs0 ++ l <> [] ->
    galois (tc_scale cfg) (tc_inv cfg) cf (INR (length (rs0 ++ l))) ->
    whenever (fun r => exists s' old groups, td_add_buffer cfg (fst r) (map XFin l) = Ret s' /\ listed (fst r) old /\
        Permutation (concat groups) (map (fun x => (x, 1)) l ++ old) /\
        StronglySorted (fun a b => fst a <= fst b) (concat groups) /\ Forall (fun g => g <> []) groups /\
        listed s' (map (fun g => (sumR (map (fun c => fst c * snd c) g) / sumR (map snd g), sumR (map snd g))) groups) /\
        forall pre g post, groups = pre ++ g :: post -> (2 <= length g)%nat ->
          spans (INR (length (rs0 ++ l))) (sumR (map snd (concat pre))) (sumR (map snd (concat pre)) + sumR (map snd g)))
      (exec (t_digest cfg) td_new ops).
  Proof.
    intros Hits Hne HG. eapply whenever_mono; [apply (td_exec_exact Hlib ops rs0 Hits)|]. intros [s ans] Hs; cbn [fst] in *.
    destruct (merge_groups l Hs Hne) as (s' & old & rs & A1 & A2 & A3 & A4 & A5 & A6 & A7 & A8 & A9).
    exists s', old, rs. split; [exact A1|]. split; [exact A2|]. split; [exact A3|]. split; [exact A4|]. split; [exact A5|]. split; [exact A6|].
    intros pre g post E Hg. refine (greedy_spans _ HG A8 A7 A9 pre g post E Hg).
    apply lt_0_INR. destruct (rs0 ++ l); [congruence|cbn; lia].
  Qed.

  (** a fresh digest: the groups are made of single items, so every centroid of weight at least 2 is a merge *)
  Theorem td_widths_fresh l : l <> [] -> galois (tc_scale cfg) (tc_inv cfg) cf (INR (length l)) ->
    exists s' cs, td_add_buffer cfg td_new (map XFin l) = Ret s' /\ listed s' cs /\
      forall pre c post, cs = pre ++ c :: post -> 2 <= snd c -> spans (INR (length l)) (sumR (map snd pre)) (sumR (map snd pre) + snd c).
  Proof.
    intros Hne HG.
    assert (texact td_new []) as H0. { left. repeat split; reflexivity. }
    destruct (merge_groups l H0 Hne) as (s' & old & rs & A1 & A2 & A3 & A4 & A5 & A6 & A7 & A8 & A9). cbn [app] in *.
    exists s', (map ravg rs). split; [exact A1|]. split; [exact A6|].
    assert (old = []) as ->. { unfold listed in A2. cbn in A2. destruct old; [auto|discriminate]. }
    intros pre c post E Hc. apply map_eq_app in E as (p1 & p2 & -> & <- & E).
    destruct p2 as [|g p2]; [discriminate|]. injection E as <- <-.
    assert (Forall (fun c => snd c = 1) (concat (p1 ++ g :: p2))) as Hu.
    { eapply Permutation_Forall; [symmetry; exact A3|]. rewrite app_nil_r. apply Forall_map, Forall_forall. reflexivity. }
    assert (2 <= length g)%nat as Hg.
    { rewrite concat_app in Hu. apply Forall_app in Hu as [_ Hu]. cbn [concat] in Hu. apply Forall_app in Hu as [Hu _].
      assert (Wt g = INR (length g)) as Ew.
      { clear -Hu. induction Hu as [|c g Hc Hu IH]; [reflexivity|]. rewrite Wt_cons, IH, Hc. cbn [length]. rewrite S_INR. ring. }
      cbn [ravg snd] in Hc. rewrite Ew in Hc. change 2 with (INR 2) in Hc. now apply INR_le in Hc. }
    assert (0 < INR (length l)) as Hn. { apply lt_0_INR. destruct l; [congruence|cbn; lia]. }
    pose proof (greedy_spans Hn HG A8 A7 A9 p1 g p2 eq_refl Hg) as HS.
    change (spans (INR (length l)) (Wt (map ravg p1)) (Wt (map ravg p1) + snd (ravg g))).
    assert (Wt (map ravg p1) = Wt (concat p1)) as ->.
    { apply Forall_app in A8 as [A8 _]. apply Forall_app in A5 as [A5 _]. exact (proj1 (ravg_sums A8 A5)). }
    exact HS.
  Qed.
End Grouping.

(* ------------------------------------------------------------------ *)
(** ** The number of centroids *)
Lemma Wt_concat_pos rs : Forall (Forall heavy) rs -> Forall (fun g => g <> []) rs -> 0 <= Wt (concat rs) /\ Forall (fun g => 1 <= Wt g) rs.
Proof.
  induction 1 as [|g rs Hg Hr IH]; intros Hn; [split; [unfold Wt; cbn; lra|constructor]|].
  pose proof (Forall_inv Hn) as Hg'. destruct (IH (Forall_inv_tail Hn)) as [H1 H2].
  assert (1 <= Wt g) by (apply posint_ge, Wt_posint; auto). cbn [concat]. rewrite Wt_app. split; [lra|constructor; auto].
Qed.

Lemma fle_false_le a b (l : xr) : fle (XFin a) l = false -> a <= b -> fle (XFin b) l = false.
Proof.
  intros H Hab. destruct l as [|[]|r]; auto. apply xle_f in H. apply xle_f. lra.
Qed.

(** two adjacent groups overreach *)
Lemma greedy_pair L n w0 g g' rs : 0 < n -> greedy L n w0 (g :: g' :: rs) -> Forall (Forall heavy) (g :: g' :: rs) -> g' <> [] ->
  fle (XFin ((w0 + Wt g + Wt g') / n)) (L (w0 / n)) = false.
Proof.
  intros Hn (_ & H & _) Hh Hg'. destruct g' as [|c g']; [congruence|]. apply fle_false_le with (1 := H).
  pose proof (Forall_inv (Forall_inv_tail Hh)) as Hc. rewrite Wt_cons. pose proof (Wt_nonneg (Forall_inv_tail Hc)).
  unfold Rdiv. apply Rmult_le_compat_r; [left; now apply Rinv_0_lt_compat|lra].
Qed.

Lemma pair_ind {A} (P : list A -> Prop) : P [] -> (forall a, P [a]) -> (forall a b l, P l -> P (a :: b :: l)) -> forall l, P l.
Proof.
  intros H0 H1 H2 l. enough (P l /\ forall a, P (a :: l)) by tauto. induction l as [|b l [IH1 IH2]]; split; auto.
Qed.

Lemma linear_number L n d : 0 < n -> 0 < d -> (forall q, L q = XFin (q + d)) -> forall rs w0, rs <> [] -> greedy L n w0 rs ->
  Forall (Forall heavy) rs -> Forall (fun g => g <> []) rs -> (INR (length rs) - 1) * d / 2 < Wt (concat rs) / n.
Proof.
  intros Hn Hd HL. apply (pair_ind (fun rs => forall w0, rs <> [] -> greedy L n w0 rs ->
    Forall (Forall heavy) rs -> Forall (fun g => g <> []) rs -> (INR (length rs) - 1) * d / 2 < Wt (concat rs) / n)).
  - congruence.
  - intros g w0 _ _ Hh Hg. destruct (Wt_concat_pos Hh Hg) as [_ H]. apply Forall_inv in H. cbn [concat length]. rewrite app_nil_r.
    assert (0 < Wt g / n) by (apply Rdiv_lt_0_compat; lra). cbn [INR]. lra.
  - intros g g' rs IH w0 _ HG Hh Hg. pose proof (greedy_pair Hn HG Hh (Forall_inv (Forall_inv_tail Hg))) as HP.
    rewrite HL in HP. apply xle_f in HP. destruct (Wt_concat_pos Hh Hg) as [_ HW].
    pose proof (Forall_inv HW) as W1. pose proof (Forall_inv (Forall_inv_tail HW)) as W2. cbn beta in W1, W2.
    assert (d < (Wt g + Wt g') / n) as HP'. { replace ((Wt g + Wt g') / n) with ((w0 + Wt g + Wt g') / n - w0 / n) by (field; lra). lra. }
    cbn [concat length]. rewrite !S_INR, !Wt_app.
    replace ((Wt g + (Wt g' + Wt (concat rs))) / n) with ((Wt g + Wt g') / n + Wt (concat rs) / n) by (field; lra).
    destruct rs as [|g2 rs]; [cbn [length INR concat]; unfold Wt at 3; cbn; replace (0 / n) with 0 by (field; lra); lra|].
    destruct HG as (_ & _ & _ & _ & HG).
    specialize (IH _ ltac:(discriminate) HG (Forall_inv_tail (Forall_inv_tail Hh)) (Forall_inv_tail (Forall_inv_tail Hg))). lra.
Qed.

(** start of the last group *)
Fixpoint last_start (w0 : R) (rs : list (list rcen)) : R :=
  match rs with [] => w0 | [_] => w0 | g :: rest => last_start (w0 + Wt g) rest end.
Lemma last_start_cons w0 g g' rs : last_start w0 (g :: g' :: rs) = last_start (w0 + Wt g) (g' :: rs).
Proof. reflexivity. Qed.
Lemma last_start_le rs : forall w0, Forall (fun g => 1 <= Wt g) rs -> rs <> [] -> w0 <= last_start w0 rs /\ last_start w0 rs + 1 <= w0 + Wt (concat rs).
Proof.
  induction rs as [|g [|g' rs] IH]; intros w0 H Hne; [congruence| |].
  - cbn [last_start concat]. rewrite app_nil_r. apply Forall_inv in H. lra.
  - rewrite last_start_cons. pose proof (Forall_inv H) as Hg. cbn beta in Hg.
    specialize (IH (w0 + Wt g) (Forall_inv_tail H) ltac:(discriminate)).
    change (concat (g :: g' :: rs)) with (g ++ concat (g' :: rs)). rewrite Wt_app. lra.
Qed.

Section LogNumber.
  Variables (L : R -> xr) (kk : R -> R) (n : R).
  Hypothesis Hn : 0 < n.
  Hypothesis Hk : forall q q', 0 < q -> q < q' -> q' < 1 -> kk q < kk q'.
  Hypothesis HL : forall q q', 0 < q < 1 -> 0 < q' < 1 -> fle (XFin q') (L q) = false -> kk q + 1 < kk q'.

  Lemma in_unit w : 0 < w -> w < n -> 0 < w / n < 1.
  Proof.
    intros. split; [now apply Rdiv_lt_0_compat|]. apply Rmult_lt_reg_r with n; auto. unfold Rdiv. rewrite Rmult_assoc, Rinv_l; lra.
  Qed.
  Lemma kk_le w w' : 0 < w -> w <= w' -> w' < n -> kk (w / n) <= kk (w' / n).
  Proof.
    intros H0 [H1| ->] H2; [|lra]. left. apply Hk; try apply in_unit; try lra.
    unfold Rdiv. apply Rmult_lt_compat_r; auto. now apply Rinv_0_lt_compat.
  Qed.

  Lemma log_number rs : forall w0, rs <> [] -> 0 < w0 -> w0 + Wt (concat rs) = n -> greedy L n w0 rs ->
    Forall (Forall heavy) rs -> Forall (fun g => g <> []) rs ->
    kk (w0 / n) + (INR (length rs) - 2) / 2 <= kk (last_start w0 rs / n).
  Proof.
    apply (pair_ind (fun rs => forall w0, rs <> [] -> 0 < w0 -> w0 + Wt (concat rs) = n -> greedy L n w0 rs ->
      Forall (Forall heavy) rs -> Forall (fun g => g <> []) rs ->
      kk (w0 / n) + (INR (length rs) - 2) / 2 <= kk (last_start w0 rs / n))); clear rs.
    - congruence.
    - intros g w0 _ H0 HW HG Hh Hg. cbn [length INR last_start]. lra.
    - intros g g' rs IH w0 _ H0 HW HG Hh Hg. destruct (Wt_concat_pos Hh Hg) as [_ Hw].
      pose proof (Forall_inv Hw) as W1. pose proof (Forall_inv (Forall_inv_tail Hw)) as W2. cbn beta in W1, W2.
      pose proof (Wt_concat_pos (Forall_inv_tail (Forall_inv_tail Hh)) (Forall_inv_tail (Forall_inv_tail Hg))) as [W3 W4].
      cbn [concat] in HW. rewrite !Wt_app in HW.
      destruct rs as [|g2 rs].
      + cbn [length INR last_start]. replace (1 + 1 - 2) with 0 by ring.
        assert (kk (w0 / n) <= kk ((w0 + Wt g) / n)) by (apply kk_le; lra). lra.
      + pose proof (greedy_pair Hn HG Hh (Forall_inv (Forall_inv_tail Hg))) as HP.
        assert (1 <= Wt (concat (g2 :: rs))) as W5.
        { cbn [concat]. rewrite Wt_app. pose proof (Forall_inv W4). cbn beta in *.
          pose proof (Wt_concat_pos (Forall_inv_tail (Forall_inv_tail (Forall_inv_tail Hh))) (Forall_inv_tail (Forall_inv_tail (Forall_inv_tail Hg)))) as [? _]. lra. }
        apply HL in HP; [|apply in_unit; lra|apply in_unit; lra].
        destruct HG as (_ & _ & _ & _ & HG).
        specialize (IH (w0 + Wt g + Wt g') ltac:(discriminate) ltac:(lra) ltac:(lra) HG (Forall_inv_tail (Forall_inv_tail Hh)) (Forall_inv_tail (Forall_inv_tail Hg))).
        rewrite !last_start_cons. change (length (g :: g' :: g2 :: rs)) with (S (S (length (g2 :: rs)))). rewrite !S_INR. lra.
  Qed.

  Theorem log_number_total rs : 2 <= n -> rs <> [] -> Wt (concat rs) = n -> greedy L n 0 rs ->
    Forall (Forall heavy) rs -> Forall (fun g => g <> []) rs ->
    INR (length rs) <= 2 * (kk (1 - 1 / n) - kk (1 / n)) + 3.
  Proof.
    intros H2 Hne HW HG Hh Hg. destruct rs as [|g [|g' rs]]; [congruence| |].
    - assert (kk (1 / n) <= kk (1 - 1 / n)).
      { replace (1 - 1 / n) with ((n - 1) / n) by (field; lra). apply kk_le; lra. }
      cbn [length INR]. lra.
    - destruct (Wt_concat_pos Hh Hg) as [_ Hw].
      pose proof (Forall_inv Hw) as W1. cbn beta in W1. destruct HG as (_ & _ & HG). rewrite Rplus_0_l in HG.
      change (concat (g :: g' :: rs)) with (g ++ concat (g' :: rs)) in HW. rewrite Wt_app in HW.
      pose proof (@log_number (g' :: rs) (Wt g) ltac:(discriminate) ltac:(lra) HW HG (Forall_inv_tail Hh) (Forall_inv_tail Hg)) as HB.
      destruct (@last_start_le (g' :: rs) (Wt g) (Forall_inv_tail Hw) ltac:(discriminate)) as [B1 B2].
      assert (kk (1 / n) <= kk (Wt g / n)) by (apply kk_le; lra).
      assert (kk (last_start (Wt g) (g' :: rs) / n) <= kk (1 - 1 / n)).
      { replace (1 - 1 / n) with ((n - 1) / n) by (field; lra). apply kk_le; lra. }
      change (length (g :: g' :: rs)) with (S (length (g' :: rs))). rewrite S_INR. lra.
  Qed.
End LogNumber.

(* ------------------------------------------------------------------ *)
(** ** The number of centroids over histories *)
Section Number.
  Variables (cfg : tcfg xr) (cf : R).
  Hypothesis Hcf : tc_cf cfg = XFin cf.
  Hypothesis Hlib : lib_ok cfg.
  Notation L n := (stepped (tc_scale cfg) (tc_inv cfg) cf n).
  Variable sized : nat -> nat -> Prop.
  Hypothesis Hsized : forall n rs, (1 <= n)%nat -> rs <> [] -> Wt (concat rs) = INR n -> greedy (L (INR n)) (INR n) 0 rs ->
    Forall (Forall heavy) rs -> Forall (fun g => g <> []) rs -> sized n (length rs).

  Definition numbered (s : tdigest xr) (its : list xr) : Prop := forall rs, its = map XFin rs ->
    texact s rs /\ (rs <> [] -> sized (length rs) (length (t_centroids s))).

  Lemma numbered_merge s its l : texact s its -> its ++ l <> [] -> (its <> [] -> sized (length its) (length (t_centroids s))) ->
    exists s', td_add_buffer cfg s (map XFin l) = Ret s' /\ texact s' (its ++ l) /\ sized (length (its ++ l)) (length (t_centroids s')).
  Proof.
    intros Hs Hne Hz. destruct (add_buffer_exact Hlib l Hs) as (s' & E & Hs').
    destruct (merge_groups Hcf Hlib l Hs Hne) as (s2 & old & rs & A1 & A2 & A3 & A4 & A5 & A6 & A7 & A8 & A9).
    rewrite E in A1. injection A1 as <-. exists s'. split; [exact E|]. split; [exact Hs'|].
    rewrite A6, !map_length. apply Hsized; auto.
    - destruct (its ++ l); [congruence|cbn; lia].
    - intros ->. unfold Wt in A7. cbn in A7. symmetry in A7. apply (INR_eq _ 0) in A7. apply length_zero_iff_nil in A7. congruence.
  Qed.

  Lemma numbered_step s its o : numbered s its -> whenever (fun r => numbered (fst r) (its ++ items_of [o])) (step (t_digest cfg) s o).
  Proof.
    intros H. destruct o as [x|l|v|q]; cbn [step t_digest d_add d_add_buffer d_est_q d_est_v items_of].
    - destruct (td_add cfg s x) as [s'| | |] eqn:E; cbn [bind whenever]; auto.
      + cbn [fst]. intros rs Ers. apply map_eq_app in Ers || (symmetry in Ers; apply map_eq_app in Ers).
        destruct Ers as (r1 & r2 & -> & E1 & E2). destruct r2 as [|y [|? ?]]; try discriminate. injection E2 as <-.
        destruct (H r1 (eq_sym E1)) as [H1 H2].
        destruct (@numbered_merge s r1 [y] H1 ltac:(destruct r1; discriminate) H2) as (s2 & F1 & F2 & F3).
        change (td_add cfg s (XFin y)) with (td_add_buffer cfg s (map XFin [y])) in E. rewrite F1 in E. injection E as <-. auto.
      + unfold td_add, add_centroid_buffer in E. destruct ([unit_cen x] ++ t_centroids s); [discriminate|].
        unfold sort_centroids in E. destruct l; [discriminate|]. destruct (existsb _ _); discriminate || (cbn [bind] in E; destruct (head _); [|discriminate]; cbn [unwrap bind] in E; destruct (last_error _); discriminate).
    - destruct (td_add_buffer cfg s l) as [s'| | |] eqn:E; cbn [bind whenever]; auto.
      + cbn [fst]. rewrite app_nil_r. intros rs Ers. symmetry in Ers; apply map_eq_app in Ers.
        destruct Ers as (r1 & r2 & -> & E1 & E2). destruct (H r1 (eq_sym E1)) as [H1 H2].
        rewrite <- E2 in E. destruct (add_buffer_exact Hlib r2 H1) as (s2 & F & F'). rewrite F in E. injection E as <-. split; auto.
        intros Hne. destruct (@numbered_merge s r1 r2 H1 Hne H2) as (s3 & F1 & F2 & F3). rewrite F in F1. injection F1 as <-. exact F3.
      + unfold td_add_buffer, add_centroid_buffer in E. destruct (map unit_cen l ++ t_centroids s); [discriminate|].
        unfold sort_centroids in E. destruct l0; [discriminate|]. destruct (existsb _ _); discriminate || (cbn [bind] in E; destruct (head _); [|discriminate]; cbn [unwrap bind] in E; destruct (last_error _); discriminate).
    - rewrite app_nil_r. rewrite bind_assoc. cbn [bind]. eapply whenever_bind; [apply whenever_true|]. cbn [whenever fst]. auto.
    - rewrite app_nil_r. rewrite bind_assoc. cbn [bind]. eapply whenever_bind; [apply whenever_true|]. cbn [whenever fst]. auto.
  Qed.

  Theorem td_number ops rs : items_of ops = map XFin rs -> rs <> [] ->
    whenever (fun r => sized (length rs) (length (t_centroids (fst r)))) (exec (t_digest cfg) td_new ops).
  Proof.
    intros Hits Hne. eapply whenever_mono.
    - refine (@exec_whenever xr (t_digest cfg) numbered numbered_step ops td_new [] _).
      intros rs0 E. symmetry in E. apply map_eq_nil in E. subst. split; [left; repeat split; reflexivity|congruence].
    - intros [s a] H. cbn [fst] in *. apply (H rs Hits). auto.
  Qed.
End Number.

(** a digest with the scale functions k, inv and compression factor cf *)
Definition with_scale (cfg : tcfg xr) (k inv : xr -> xr -> xr -> xr) (cf : R) : Prop :=
  lib_ok cfg /\ tc_scale cfg = k /\ tc_inv cfg = inv /\ tc_cf cfg = XFin cf.

Lemma number_k0 cfg cf ops rs : with_scale cfg k0 inv_k0 cf -> 0 < cf -> items_of ops = map XFin rs -> rs <> [] ->
  whenever (fun r => INR (length (t_centroids (fst r))) < cf + 1) (exec (t_digest cfg) td_new ops).
Proof.
  intros (Hlib & Hk & Hi & Hc) Hcf Hits Hne.
  refine (@td_number cfg cf Hc Hlib (fun n m => INR m < cf + 1) _ ops rs Hits Hne).
  intros n gs Hn Hg HW HG Hh He. rewrite Hk, Hi in HG. assert (0 < INR n) as Hn' by (apply lt_0_INR; lia).
  pose proof (@linear_number _ (INR n) (2 / cf) Hn' ltac:(apply Rdiv_lt_0_compat; lra)
     (fun q => @k0_stepped cf (INR n) q ltac:(lra)) gs 0 Hg HG Hh He) as HB.
  rewrite HW in HB. replace (INR n / INR n) with 1 in HB by (field; lra).
  assert ((INR (length gs) - 1) * (2 / cf) / 2 * cf = INR (length gs) - 1) by (field; lra). nra.
Qed.

Section LogBounds.
  Variables (cfg : tcfg xr) (cf : R) (k inv : xr -> xr -> xr -> xr) (kk : R -> R -> R).
  Variable okn : nat -> Prop.
  Hypothesis Hk : forall n, okn n -> forall q q', 0 < q -> q < q' -> q' < 1 -> kk (INR n) q < kk (INR n) q'.
  Hypothesis HL : forall n, okn n -> forall q q', 0 < q < 1 -> 0 < q' < 1 -> fle (XFin q') (stepped k inv cf (INR n) q) = false -> kk (INR n) q + 1 < kk (INR n) q'.
  Hypothesis Hw : with_scale cfg k inv cf.
  Lemma number_log ops rs : items_of ops = map XFin rs -> rs <> [] ->
    whenever (fun r => (2 <= length rs)%nat -> okn (length rs) ->
       INR (length (t_centroids (fst r))) <= 2 * (kk (INR (length rs)) (1 - 1 / INR (length rs)) - kk (INR (length rs)) (1 / INR (length rs))) + 3)
      (exec (t_digest cfg) td_new ops).
  Proof.
    intros Hits Hne. destruct Hw as (Hlib & Ek & Ei & Hc).
    refine (@td_number cfg cf Hc Hlib (fun n m => (2 <= n)%nat -> okn n -> INR m <= 2 * (kk (INR n) (1 - 1 / INR n) - kk (INR n) (1 / INR n)) + 3) _ ops rs Hits Hne).
    intros n gs Hn Hg HW HG Hh He H2 Hok. rewrite Ek, Ei in HG. assert (2 <= INR n) as Hn' by (change 2 with (INR 2); apply le_INR; lia).
    refine (@log_number_total _ (kk (INR n)) (INR n) ltac:(lra) (Hk Hok) _ gs Hn' Hg HW HG Hh He). intros q q'. apply HL. auto.
  Qed.
End LogBounds.

Lemma inv_lt_1 n : 2 <= n -> 0 < 1 / n <= 1 / 2.
Proof.
  intros. split; [apply Rdiv_lt_0_compat; lra|]. apply Rmult_le_reg_r with n; [lra|]. unfold Rdiv. rewrite Rmult_assoc, Rinv_l; lra.
Qed.

Lemma k2_overreach cf n : 0 < cf -> 0 < n -> 0 < den 24 cf n -> forall q q', 0 < q < 1 -> 0 < q' < 1 ->
  fle (XFin q') (stepped k2 inv_k2 cf n q) = false -> rk2 cf n q + 1 < rk2 cf n q'.
Proof.
  intros Hcf Hn Hd q q' Hq Hq' H. rewrite k2_stepped in H by auto. apply xle_f in H.
  pose proof (expit_range (logit q + den 24 cf n / cf)).
  assert (logit q + den 24 cf n / cf < logit q') as C.
  { rewrite <- (logit_expit (logit q + den 24 cf n / cf)). apply logit_lt; lra. }
  unfold rk2. replace 1 with (cf / den 24 cf n * (den 24 cf n / cf)) by (field; lra).
  rewrite <- Rmult_plus_distr_l. apply Rmult_lt_compat_l; auto. apply Rdiv_lt_0_compat; lra.
Qed.
Lemma k3_overreach cf n : 0 < cf -> 0 < n -> 0 < den 21 cf n -> forall q q', 0 < q < 1 -> 0 < q' < 1 ->
  fle (XFin q') (stepped k3 inv_k3 cf n q) = false -> rk3 cf n q + 1 < rk3 cf n q'.
Proof.
  intros Hcf Hn Hd q q' Hq Hq' H. rewrite k3_stepped in H by auto. apply xle_f in H.
  pose proof (triexp_range (trilog q + den 21 cf n / cf)).
  assert (trilog q + den 21 cf n / cf < trilog q') as C.
  { rewrite <- (trilog_triexp (trilog q + den 21 cf n / cf)). apply trilog_lt; lra. }
  unfold rk3. replace 1 with (cf / den 21 cf n * (den 21 cf n / cf)) by (field; lra).
  rewrite <- Rmult_plus_distr_l. apply Rmult_lt_compat_l; auto. apply Rdiv_lt_0_compat; lra.
Qed.

Lemma logit_ends n : 2 <= n -> logit (1 - 1 / n) - logit (1 / n) = 2 * log10 (n - 1).
Proof.
  intros. unfold logit. replace ((1 - 1 / n) / (1 - (1 - 1 / n))) with (n - 1) by (field; lra).
  replace (1 / n / (1 - 1 / n)) with (/ (n - 1)) by (field; lra). rewrite log10_inv by lra. ring.
Qed.
Lemma trilog_ends n : 2 <= n -> trilog (1 - 1 / n) - trilog (1 / n) = 2 * log10 (n / 2).
Proof.
  intros. pose proof (inv_lt_1 H). unfold trilog. destruct (Rle_dec (1 / n) (1 / 2)); [|lra].
  replace (2 * (1 / n)) with (/ (n / 2)) by (field; lra). rewrite log10_inv by lra.
  destruct (Rle_dec (1 - 1 / n) (1 / 2)).
  - assert (1 / n = 1 / 2) as E by lra. assert (n = 2) as ->. { apply Rmult_eq_reg_l with (1 / n); [|lra]. rewrite E at 2. field_simplify; lra. }
    replace (2 * (1 - 1 / 2)) with 1 by field. replace (2 / 2) with 1 by field. rewrite log10_1. ring.
  - replace (2 * (1 - (1 - 1 / n))) with (/ (n / 2)) by (field; lra). rewrite log10_inv by lra. ring.
Qed.
Lemma nat_ge_2 (rs : list R) : (2 <= length rs)%nat -> 2 <= INR (length rs).
Proof. intros. change 2 with (INR 2). now apply le_INR. Qed.

Lemma number_k2 cfg cf ops rs : with_scale cfg k2 inv_k2 cf -> 0 < cf -> items_of ops = map XFin rs -> (2 <= length rs)%nat ->
  let n := INR (length rs) in 0 < den 24 cf n ->
  whenever (fun r => INR (length (t_centroids (fst r))) <= 4 * cf * log10 (n - 1) / (4 * log10 (n / cf) + 24) + 3) (exec (t_digest cfg) td_new ops).
Proof.
  intros Hw Hcf Hits H2 n Hd. pose proof (nat_ge_2 _ H2) as Hn. fold n in Hn.
  eapply whenever_mono.
  - refine (@number_log cfg cf k2 inv_k2 (fun n => rk2 cf n) (fun n => 0 < INR n /\ 0 < den 24 cf (INR n)) _ _ Hw ops rs Hits _).
    + intros m [Hm Hm'] q q'. now apply rk2_lt.
    + intros m [Hm Hm'] q q'. now apply k2_overreach.
    + intros ->. cbn in H2. lia.
  - intros r Hr. cbn beta in *. fold n in Hr. specialize (Hr H2 (conj (Rlt_le_trans _ _ _ Rlt_0_2 Hn) Hd)).
    apply Rle_trans with (1 := Hr). apply Rplus_le_compat_r. unfold rk2. rewrite <- Rmult_minus_distr_l, logit_ends by auto.
    unfold den in *. right. field. lra.
Qed.
Lemma number_k3 cfg cf ops rs : with_scale cfg k3 inv_k3 cf -> 0 < cf -> items_of ops = map XFin rs -> (2 <= length rs)%nat ->
  let n := INR (length rs) in 0 < den 21 cf n ->
  whenever (fun r => INR (length (t_centroids (fst r))) <= 4 * cf * log10 (n / 2) / (4 * log10 (n / cf) + 21) + 3) (exec (t_digest cfg) td_new ops).
Proof.
  intros Hw Hcf Hits H2 n Hd. pose proof (nat_ge_2 _ H2) as Hn. fold n in Hn.
  eapply whenever_mono.
  - refine (@number_log cfg cf k3 inv_k3 (fun n => rk3 cf n) (fun n => 0 < INR n /\ 0 < den 21 cf (INR n)) _ _ Hw ops rs Hits _).
    + intros m [Hm Hm'] q q'. now apply rk3_lt.
    + intros m [Hm Hm'] q q'. now apply k3_overreach.
    + intros ->. cbn in H2. lia.
  - intros r Hr. cbn beta in *. fold n in Hr. specialize (Hr H2 (conj (Rlt_le_trans _ _ _ Rlt_0_2 Hn) Hd)).
    apply Rle_trans with (1 := Hr). apply Rplus_le_compat_r. unfold rk3. rewrite <- Rmult_minus_distr_l, trilog_ends by auto.
    unfold den in *. right. field. lra.
Qed.

(** one item: one centroid *)
Lemma number_one cfg cf k inv ops x : with_scale cfg k inv cf -> items_of ops = [XFin x] ->
  whenever (fun r => length (t_centroids (fst r)) = 1%nat) (exec (t_digest cfg) td_new ops).
Proof.
  intros (Hlib & _ & _ & Hc) Hits. eapply whenever_mono.
  - refine (@td_number cfg cf Hc Hlib (fun n m => n = 1%nat -> m = 1%nat) _ ops [x] Hits ltac:(discriminate)).
    intros n gs Hn Hg HW HG Hh He ->. change (INR 1) with 1 in HW. destruct (Wt_concat_pos Hh He) as [_ HP].
    destruct gs as [|g [|g' gs]]; [congruence|reflexivity|]. exfalso.
    pose proof (Forall_inv HP). pose proof (Forall_inv (Forall_inv_tail HP)). cbn beta in *.
    cbn [concat] in HW. rewrite !Wt_app in HW.
    pose proof (proj1 (Wt_concat_pos (Forall_inv_tail (Forall_inv_tail Hh)) (Forall_inv_tail (Forall_inv_tail He)))). lra.
  - intros r Hr. now apply Hr.
Qed.

Lemma log10_bound_pow e x : 0 < x -> x <= pow10 e -> log10 x <= e.
Proof. intros. rewrite <- (log10_pow10 e). now apply log10_le. Qed.
Lemma pow10_nat k : pow10 (INR k) = 10 ^ k.
Proof. unfold pow10. apply Rpower_pow. lra. Qed.

(** ... so the size does not depend on the number of items *)
Lemma bounded_k2 cfg cf ops rs : with_scale cfg k2 inv_k2 cf -> 0 < cf <= 10 ^ 6 -> items_of ops = map XFin rs -> rs <> [] ->
  whenever (fun r => INR (length (t_centroids (fst r))) <= cf + 3) (exec (t_digest cfg) td_new ops).
Proof.
  intros Hw [Hcf Hcf6] Hits Hne. destruct (le_lt_dec 2 (length rs)) as [H2|H2].
  - pose proof (nat_ge_2 _ H2) as Hn. set (n := INR (length rs)) in *.
    assert (log10 cf <= 6) as Hl. { apply log10_bound_pow; auto. replace 6 with (INR 6) by (cbn; ring). now rewrite pow10_nat. }
    assert (0 < log10 n) as Hln. { rewrite <- log10_1. apply log10_lt; lra. }
    assert (log10 (n - 1) <= log10 n) as Hln1 by (apply log10_le; lra).
    assert (den 24 cf n = 4 * log10 n - 4 * log10 cf + 24) as Ed. { unfold den. rewrite log10_div by lra. ring. }
    eapply whenever_mono; [apply (@number_k2 cfg cf ops rs Hw Hcf Hits H2); fold n; lra|].
    intros r Hr. cbn beta in *. fold n in Hr. apply Rle_trans with (1 := Hr). apply Rplus_le_compat_r.
    fold (den 24 cf n). apply Rmult_le_reg_r with (den 24 cf n); [lra|]. unfold Rdiv. rewrite Rmult_assoc, Rinv_l by lra.
    rewrite Rmult_1_r, Ed. nra.
  - destruct rs as [|x [|? ?]]; [congruence| |cbn in H2; lia].
    eapply whenever_mono; [apply (number_one ops Hw Hits)|]. intros r ->. cbn [INR]. lra.
Qed.
Lemma bounded_k3 cfg cf ops rs : with_scale cfg k3 inv_k3 cf -> 0 < cf <= 10 ^ 5 -> items_of ops = map XFin rs -> rs <> [] ->
  whenever (fun r => INR (length (t_centroids (fst r))) <= cf + 3) (exec (t_digest cfg) td_new ops).
Proof.
  intros Hw [Hcf Hcf6] Hits Hne. destruct (le_lt_dec 2 (length rs)) as [H2|H2].
  - pose proof (nat_ge_2 _ H2) as Hn. set (n := INR (length rs)) in *.
    assert (log10 cf <= 5) as Hl. { apply log10_bound_pow; auto. replace 5 with (INR 5) by (cbn; ring). now rewrite pow10_nat. }
    assert (0 < log10 n) as Hln. { rewrite <- log10_1. apply log10_lt; lra. }
    assert (log10 (n / 2) <= log10 n) as Hln1 by (apply log10_le; lra).
    assert (den 21 cf n = 4 * log10 n - 4 * log10 cf + 21) as Ed. { unfold den. rewrite log10_div by lra. ring. }
    eapply whenever_mono; [apply (@number_k3 cfg cf ops rs Hw Hcf Hits H2); fold n; lra|].
    intros r Hr. cbn beta in *. fold n in Hr. apply Rle_trans with (1 := Hr). apply Rplus_le_compat_r.
    fold (den 21 cf n). apply Rmult_le_reg_r with (den 21 cf n); [lra|]. unfold Rdiv. rewrite Rmult_assoc, Rinv_l by lra.
    rewrite Rmult_1_r, Ed. nra.
  - destruct rs as [|x [|? ?]]; [congruence| |cbn in H2; lia].
    eapply whenever_mono; [apply (number_one ops Hw Hits)|]. intros r ->. cbn [INR]. lra.
Qed.

(** k2_asym and k2n *)
Lemma number_k2_asym cfg cf ops rs : with_scale cfg k2_asym inv_k2_asym cf -> 0 < cf -> items_of ops = map XFin rs -> (2 <= length rs)%nat ->
  let n := INR (length rs) in 0 < den 24 (cf * 2) n ->
  whenever (fun r => INR (length (t_centroids (fst r))) <= 4 * cf * log10 (2 * n - 1) / (4 * log10 (n / (cf * 2)) + 24) + 3) (exec (t_digest cfg) td_new ops).
Proof.
  intros Hw Hcf Hits H2 n Hd. pose proof (nat_ge_2 _ H2) as Hn. fold n in Hn.
  eapply whenever_mono.
  - refine (@number_log cfg cf k2_asym inv_k2_asym (fun n q => rk2 (cf * 2) n (q * (1 / 2))) (fun n => 0 < INR n /\ 0 < den 24 (cf * 2) (INR n)) _ _ Hw ops rs Hits _).
    + intros m [Hm Hm'] q q' ? ? ?. apply rk2_lt; lra.
    + intros m [Hm Hm'] q q' Hq Hq' H. apply k2_overreach; try lra.
      unfold stepped in *. rewrite k2_asym_as_k2, inv_k2_asym_as_k2 in H.
      destruct (inv_k2 _ _ _) as [|[]|x]; auto.
      * rewrite xmul_inf_pos' in H by lra. discriminate.
      * rewrite xmul_fin in H. apply xle_f in H. apply xle_f. lra.
    + intros ->. cbn in H2. lia.
  - intros r Hr. cbn beta in *. fold n in Hr. specialize (Hr H2 (conj (Rlt_le_trans _ _ _ Rlt_0_2 Hn) Hd)).
    apply Rle_trans with (1 := Hr). apply Rplus_le_compat_r. unfold rk2. rewrite <- Rmult_minus_distr_l.
    assert (logit ((1 - 1 / n) * (1 / 2)) < 0) as Hl.
    { pose proof (inv_lt_1 Hn). unfold logit. rewrite <- log10_1. apply log10_lt; [apply Rdiv_lt_0_compat; lra|].
      apply Rmult_lt_reg_r with (1 - (1 - 1 / n) * (1 / 2)); [lra|]. unfold Rdiv at 1. rewrite Rmult_assoc, Rinv_l; lra. }
    assert (logit (1 / n * (1 / 2)) = - log10 (2 * n - 1)) as ->.
    { unfold logit. replace (1 / n * (1 / 2) / (1 - 1 / n * (1 / 2))) with (/ (2 * n - 1)) by (field; lra). apply log10_inv. lra. }
    fold (den 24 (cf * 2) n). assert (0 < cf * 2 / den 24 (cf * 2) n) as Hp by (apply Rdiv_lt_0_compat; lra).
    replace (4 * cf * log10 (2 * n - 1) / den 24 (cf * 2) n) with (2 * (cf * 2 / den 24 (cf * 2) n * log10 (2 * n - 1))) by (field; lra).
    nra.
Qed.
Lemma number_k2n cfg cf ops rs : with_scale cfg k2n inv_k2n cf -> 0 < cf -> items_of ops = map XFin rs -> (2 <= length rs)%nat ->
  let n := INR (length rs) in let c := cf / 10 * (log10 n * log10 n) in 0 < den 24 c n ->
  whenever (fun r => INR (length (t_centroids (fst r))) <= 4 * c * log10 (n - 1) / (4 * log10 (n / c) + 24) + 3) (exec (t_digest cfg) td_new ops).
Proof.
  intros Hw Hcf Hits H2 n c Hd. pose proof (nat_ge_2 _ H2) as Hn. fold n in Hn.
  eapply whenever_mono.
  - refine (@number_log cfg cf k2n inv_k2n (fun n => rk2 (cfn cf n) n) (fun n => 1 < INR n /\ 0 < den 24 (cfn cf (INR n)) (INR n)) _ _ Hw ops rs Hits _).
    + intros m [Hm Hm'] q q'. apply rk2_lt; auto. apply cfn_pos; lra.
    + intros m [Hm Hm'] q q' Hq Hq' H. unfold stepped in H. rewrite k2n_as_k2, inv_k2n_as_k2 in H by lra.
      apply k2_overreach; auto; [apply cfn_pos|]; lra.
    + intros ->. cbn in H2. lia.
  - intros r Hr. cbn beta in *. fold n in Hr. specialize (Hr H2 (conj (Rlt_le_trans _ _ _ (ltac:(lra) : 1 < 2) Hn) Hd)).
    apply Rle_trans with (1 := Hr). apply Rplus_le_compat_r. unfold rk2. rewrite <- Rmult_minus_distr_l, logit_ends by auto.
    change (cfn cf n) with c. unfold den in *. right. field. lra.
Qed.

(* ------------------------------------------------------------------ *)
(** ** k1: no bound *)
Lemma k1_cf3_start n : stepped k1 inv_k1 3 n 0 = XFin (3 / 4).
Proof.
  rewrite k1_stepped by lra. apply f_equal. replace (2 * 0 - 1) with (- (1)) by ring. rewrite asin_opp, asin_1.
  replace (- (PI / 2) + 2 * PI / 3) with (PI / 6) by field. rewrite sin_PI6. field.
Qed.
Lemma k1_cf3_tail n q : 3 / 4 <= q <= 1 -> exists x, stepped k1 inv_k1 3 n q = XFin x /\ x <= 3 / 4.
Proof.
  intros Hq. eexists. split; [apply k1_stepped; lra|].
  pose proof PI_RGT_0. pose proof (asin_bound (2 * q - 1)) as B.
  assert (PI / 6 <= asin (2 * q - 1)) as B2.
  { rewrite <- (asin_sin (PI / 6)) by lra. rewrite sin_PI6. destruct (Req_dec (1 / 2) (2 * q - 1)) as [->|N]; [lra|]. left. apply asin_lt; lra. }
  set (x := asin (2 * q - 1) + 2 * PI / 3). assert (5 * PI / 6 <= x <= 7 * PI / 6) by (unfold x; lra).
  assert (sin x <= 1 / 2); [|lra]. rewrite <- sin_PI_x, <- sin_PI6. apply sin_incr_1; lra.
Qed.

Lemma singles_length (g : list rcen) : Forall (fun c => snd c = 1) g -> Wt g = INR (length g).
Proof. induction 1 as [|c g Hc Hu IH]; [reflexivity|]. rewrite Wt_cons, IH, Hc. cbn [length]. rewrite S_INR. ring. Qed.

Lemma k1_tail_singles n : 0 < n -> forall rs w0, 3 / 4 * n <= w0 -> w0 + Wt (concat rs) = n -> greedy (stepped k1 inv_k1 3 n) n w0 rs ->
  Forall (Forall (fun c => snd c = 1)) rs -> Forall (fun g => g <> []) rs -> length rs = length (concat rs).
Proof.
  intros Hn rs. induction rs as [|g rs IH]; intros w0 Hw HW HG Hu Hg; auto. destruct HG as (H1 & _ & H3).
  cbn [concat] in *. rewrite Wt_app in HW.
  assert (Wt g = INR (length g)) as Ew by (apply singles_length; now inversion Hu).
  assert (0 <= Wt (concat rs)) as Hnn.
  { apply Wt_nonneg. apply Forall_inv_tail in Hu. clear -Hu. induction Hu as [|g rs Hg Hu IH]; [constructor|]. cbn [concat]. apply Forall_app. split; auto.
    eapply Forall_impl; [|exact Hg]. intros c Hc. unfold heavy. rewrite Hc. apply posint_1. }
  destruct g as [|c [|d g]]; [apply Forall_inv in Hg; congruence| |].
  - cbn [length app]. f_equal. apply (IH (w0 + Wt [c])); [|lra|exact H3|now inversion Hu|now inversion Hg].
    rewrite Ew. cbn [length INR]. lra.
  - exfalso. specialize (H1 ltac:(cbn; lia)). cbn [length] in Ew. rewrite !S_INR in Ew. pose proof (pos_INR (length g)).
    assert (3 / 4 <= w0 / n <= 1) as Hq.
    { split; apply Rmult_le_reg_r with n; auto; unfold Rdiv at 2 || unfold Rdiv; rewrite ?Rmult_assoc, Rinv_l by lra; lra. }
    destruct (@k1_cf3_tail n (w0 / n) Hq) as (x & E & Hx). rewrite E in H1. apply xle_b in H1.
    assert (w0 / n < (w0 + Wt (c :: d :: g)) / n). { unfold Rdiv. apply Rmult_lt_compat_r; [now apply Rinv_0_lt_compat|lra]. }
    lra.
Qed.

Lemma number_k1 cfg m l : with_scale cfg k1 inv_k1 3 -> (1 <= m)%nat -> length l = (4 * m)%nat ->
  exists s, td_add_buffer cfg td_new (map XFin l) = Ret s /\ length (t_centroids s) = (m + 1)%nat.
Proof.
  intros (Hlib & Hk & Hi & Hc) Hm Hl.
  assert (texact td_new []) as H0. { left. repeat split; reflexivity. }
  assert (l <> []) as Hne by (intros ->; cbn in Hl; lia).
  destruct (merge_groups Hc Hlib l H0 Hne) as (s' & old & rs & A1 & A2 & A3 & A4 & A5 & A6 & A7 & A8 & A9). cbn [app] in *.
  exists s'. split; [exact A1|]. rewrite A6, !map_length. rewrite Hk, Hi in A9.
  assert (old = []) as ->. { unfold listed in A2. cbn in A2. destruct old; [auto|discriminate]. } rewrite app_nil_r in A3.
  assert (Forall (fun c => snd c = 1) (concat rs)) as Hu.
  { eapply Permutation_Forall; [symmetry; exact A3|]. apply Forall_map, Forall_forall. reflexivity. }
  assert (length (concat rs) = (4 * m)%nat) as Elen. { rewrite (Permutation_length A3), map_length. exact Hl. }
  assert (INR (length l) = 4 * INR m) as En. { rewrite Hl, mult_INR. cbn [INR]. ring. }
  assert (1 <= INR m) as Hm1. { change 1 with (INR 1). now apply le_INR. }
  rewrite En in A7, A9. set (n := 4 * INR m) in *.
  assert (0 < n) as Hn by (unfold n; lra).
  assert (Forall (Forall (fun c => snd c = 1)) rs) as Hus.
  { clear -Hu. induction rs as [|g rs IH]; constructor; cbn [concat] in Hu; apply Forall_app in Hu as [A B]; auto. }
  destruct rs as [|g rs]; [cbn in Elen; lia|]. destruct A9 as (G1 & G2 & G3). rewrite Rplus_0_l in *.
  replace (0 / n) with 0 in G1, G2 by (field; lra). rewrite k1_cf3_start in G1, G2.
  pose proof (Forall_inv Hus) as Hug. pose proof (singles_length Hug) as Ewg.
  assert (length g <= 3 * m)%nat as Hle.
  { destruct (le_lt_dec 2 (length g)) as [H2|H2]; [|lia]. specialize (G1 H2). apply xle_b in G1.
    apply INR_le. rewrite mult_INR. cbn [INR]. rewrite <- Ewg. apply Rmult_le_reg_r with (/ n); [now apply Rinv_0_lt_compat|].
    unfold Rdiv in G1 at 1. apply Rle_trans with (1 := G1). right. unfold n. field. lra. }
  destruct rs as [|g' rs].
  { exfalso. cbn [concat] in Elen. rewrite app_nil_r in Elen. lia. }
  destruct g' as [|c g']; [apply Forall_inv_tail, Forall_inv in A5; congruence|].
  apply xle_f in G2. assert (snd c = 1) as Ec by (apply Forall_inv_tail, Forall_inv, Forall_inv in Hus; exact Hus). rewrite Ec, Ewg in G2.
  assert (3 * m < length g + 1)%nat as Hge.
  { apply INR_lt. rewrite mult_INR, plus_INR. cbn [INR]. apply Rmult_lt_reg_r with (/ n); [now apply Rinv_0_lt_compat|].
    unfold Rdiv in G2 at 2. apply Rle_lt_trans with (2 := G2). right. unfold n. field. lra. }
  assert (length g = 3 * m)%nat as Eg by lia.
  change (concat (g :: (c :: g') :: rs)) with (g ++ concat ((c :: g') :: rs)) in *. rewrite Wt_app in A7.
  assert (length ((c :: g') :: rs) = length (concat ((c :: g') :: rs))) as ER.
  { apply (@k1_tail_singles n Hn _ (Wt g)); auto.
    - rewrite Ewg, Eg, mult_INR. cbn [INR]. unfold n. lra.
    - now inversion Hus.
    - now inversion A5. }
  rewrite app_length in Elen. cbn [length] in *. lia.
Qed.

(* ------------------------------------------------------------------ *)
(** ** The statements of P_Scale *)

(** [unit_steps k inv cf n]: the pair never claims that one unit of the scale reaches a quantile that is more than one
    unit away. *)
Definition unit_steps (k inv : xr -> xr -> xr -> xr) (cf n : R) : Prop := forall q q', 0 <= q -> q < q' -> q' <= 1 ->
  fle (XFin q') (inv (fadd (k (XFin q) (XFin cf) (XFin n)) (XFin 1)) (XFin cf) (XFin n)) = true ->
  fle (k (XFin q') (XFin cf) (XFin n)) (fadd (k (XFin q) (XFin cf) (XFin n)) (XFin 1)) = true.

Lemma unit_steps_galois k inv cf n : unit_steps k inv cf n <-> galois k inv cf n.
Proof. split; intros H q q'; exact (H q q'). Qed.

Lemma unit_steps_inverse (K I : R -> R) k inv cf n :
  (forall q, k (XFin q) (XFin cf) (XFin n) = XFin (K q)) -> (forall s, inv (XFin s) (XFin cf) (XFin n) = XFin (I s)) ->
  (forall a b, a <= b -> K a <= K b) -> (forall s, K (I s) = s) -> unit_steps k inv cf n.
Proof.
  intros Hk Hi Hm Hr q q' _ _ _ H. rewrite !Hk in *. rewrite xadd_fin in *. rewrite Hi in H. apply xle_b in H. apply xle_b.
  rewrite <- (Hr (K q + 1)). auto.
Qed.

Lemma width_fresh cfg cf : lib_ok cfg -> tc_cf cfg = XFin cf -> forall l, l <> [] ->
  let n := INR (length l) in unit_steps (tc_scale cfg) (tc_inv cfg) cf n ->
  exists s' cs, td_add_buffer cfg td_new (map XFin l) = Ret s' /\ listed s' cs /\
    forall pre c post, cs = pre ++ c :: post -> 2 <= snd c ->
      let left := sumR (map snd pre) / n in let right := (sumR (map snd pre) + snd c) / n in
      fle (tc_scale cfg (XFin right) (XFin cf) (XFin n)) (fadd (tc_scale cfg (XFin left) (XFin cf) (XFin n)) (XFin 1)) = true.
Proof.
  intros Hlib Hc l Hl n Hu. apply unit_steps_galois in Hu.
  destruct (td_widths_fresh Hc Hlib Hl Hu) as (s' & cs & A & B & C). exists s', cs. split; [exact A|]. split; [exact B|].
  intros pre c post E H2. specialize (C pre c post E H2). unfold spans in C. rewrite Hc in C. exact C.
Qed.

Lemma width_history cfg cf : lib_ok cfg -> tc_cf cfg = XFin cf -> forall ops rs l, items_of ops = map XFin rs -> rs ++ l <> [] ->
  let n := INR (length (rs ++ l)) in unit_steps (tc_scale cfg) (tc_inv cfg) cf n ->
  whenever (fun r => exists s' old groups, td_add_buffer cfg (fst r) (map XFin l) = Ret s' /\ listed (fst r) old /\
      Permutation (concat groups) (map (fun x => (x, 1)) l ++ old) /\
      StronglySorted (fun a b => fst a <= fst b) (concat groups) /\ Forall (fun g => g <> []) groups /\
      listed s' (map (fun g => (sumR (map (fun c => fst c * snd c) g) / sumR (map snd g), sumR (map snd g))) groups) /\
      forall pre g post, groups = pre ++ g :: post -> (2 <= length g)%nat ->
        let left := sumR (map snd (concat pre)) / n in let right := (sumR (map snd (concat pre)) + sumR (map snd g)) / n in
        fle (tc_scale cfg (XFin right) (XFin cf) (XFin n)) (fadd (tc_scale cfg (XFin left) (XFin cf) (XFin n)) (XFin 1)) = true)
    (exec (t_digest cfg) td_new ops).
Proof.
  intros Hlib Hc ops rs l Hits Hne n Hu. apply unit_steps_galois in Hu.
  eapply whenever_mono; [apply (td_widths Hc Hlib ops rs l Hits Hne Hu)|].
  intros r (s' & old & groups & A1 & A2 & A3 & A4 & A5 & A6 & A7). exists s', old, groups. repeat (split; [assumption|]).
  intros pre g post E H2. specialize (A7 pre g post E H2). unfold spans in A7. rewrite Hc in A7. exact A7.
Qed.

Lemma shipped_unit_steps cf n : 0 < cf -> 0 < n ->
  unit_steps k0 inv_k0 cf n /\ unit_steps k1 inv_k1 cf n /\
  (0 < 4 * log10 (n / cf) + 24 -> unit_steps k2 inv_k2 cf n) /\
  (0 < 4 * log10 (n / cf) + 21 -> unit_steps k3 inv_k3 cf n) /\
  (0 < 4 * log10 (n / (cf * 2)) + 24 -> unit_steps k2_asym inv_k2_asym cf n) /\
  (let c := cf / 10 * (log10 n * log10 n) in n <> 1 -> 0 < 4 * log10 (n / c) + 24 -> unit_steps k2n inv_k2n cf n).
Proof.
  intros Hc Hn. repeat split; intros; apply unit_steps_galois; auto using k0_galois, k1_galois, k2_galois, k3_galois, k2_asym_galois, k2n_galois.
Qed.

Lemma number_k1_unbounded : exists cf, forall cfg, with_scale cfg k1 inv_k1 cf -> forall bound : nat, exists items s,
  td_add_buffer cfg td_new (map XFin items) = Ret s /\ (bound < length (t_centroids s))%nat.
Proof.
  exists 3. intros cfg Hw b. exists (repeat 0 (4 * S b)).
  destruct (@number_k1 cfg (S b) (repeat 0 (4 * S b)) Hw) as (s & A & B); [lia|apply repeat_length|].
  exists s. split; [exact A|]. rewrite B. lia.
Qed.

Lemma log10_10 : log10 10 = 1.
Proof. unfold log10. field. pose proof ln_lt_2. assert (ln 2 < ln 10) by (apply ln_increasing; lra). lra. Qed.

Lemma threshold cf n : 0 < cf -> 0 < n -> (0 < 4 * log10 (n / cf) + 24 <-> cf < 10 ^ 6 * n).
Proof.
  intros Hc Hn. rewrite log10_div by lra.
  assert (log10 (10 ^ 6 * n) = 6 + log10 n) as E.
  { rewrite log10_mult; [|apply pow_lt; lra|lra]. f_equal. rewrite <- pow10_nat, log10_pow10. cbn [INR]. ring. }
  assert (0 < 10 ^ 6 * n) by (apply Rmult_lt_0_compat; [apply pow_lt|]; lra).
  split; intros H'.
  - apply Rnot_le_lt. intros Hle. apply log10_le in Hle; lra.
  - apply log10_lt in H'; lra.
Qed.
Lemma k2_down cf n q q' : 0 < cf -> 0 < n -> 4 * log10 (n / cf) + 24 < 0 -> 0 < q -> q < q' -> q' < 1 ->
  up (fun x => k2 x (XFin cf) (XFin n)) q' q.
Proof.
  intros Hc Hn Hd H0 H1 H2. change (den 24 cf n < 0) in Hd. exists (rk2 cf n q'), (rk2 cf n q).
  assert (0 < n / cf) by (now apply Rdiv_lt_0_compat).
  rewrite !k2_val by lra. repeat split; auto. unfold rk2.
  assert (logit q < logit q') by (now apply logit_lt).
  assert (cf / den 24 cf n < 0). { unfold Rdiv. pose proof (Rinv_lt_0_compat _ Hd). nra. }
  nra.
Qed.
Lemma k1_steps_back cf n : 1 < cf -> exists q x, 0 <= q < 1 /\
  inv_k1 (fadd (k1 (XFin q) (XFin cf) (XFin n)) (XFin 1)) (XFin cf) (XFin n) = XFin x /\ x < q.
Proof. intros H. destruct (@k1_backward cf n ltac:(lra) H) as (q & x & A). exists q, x. exact A. Qed.

Lemma den_1000 a : 0 <= a -> den a 100 1000 = 4 + a.
Proof. intros. unfold den. replace (1000 / 100) with 10 by field. rewrite log10_10. ring. Qed.
Lemma k2_k3_case : inv_k2 (k2 (XFin (1 / 4)) (XFin 100) (XFin 1000)) (XFin 100) (XFin 1000) = XFin (1 / 4)
  /\ inv_k3 (k3 (XFin (1 / 4)) (XFin 100) (XFin 1000)) (XFin 100) (XFin 1000) = XFin (1 / 4).
Proof. split; [apply k2_inv|apply k3_inv]; try rewrite den_1000; lra. Qed.
Lemma k2_forward_case : forward k2 inv_k2 100 1000 (1 / 4).
Proof. apply k2_forward; try rewrite den_1000; lra. Qed.
