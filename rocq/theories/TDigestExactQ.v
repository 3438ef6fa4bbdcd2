(** Quantile queries of the t-digest in exact arithmetic: value, range, where they are monotone. *)
From Coq Require Import List Arith ZArith Lia Bool Permutation Sorted Reals Lra.
From Flocq Require Import Core.
From Verif Require Import Base Floats XReal Digest TDigest Spec FloatFacts History TDigestProofs TDigestProofs2 TDigestExact.
Set Implicit Arguments.
Local Open Scope R_scope.

Ltac xcmp := repeat match goal with
  | |- context [feq (XFin ?a) (XFin ?b)] => let E := fresh "E" in destruct (feq (XFin a) (XFin b)) eqn:E; [apply xeq_b in E|apply xeq_f in E]
  | |- context [fle (XFin ?a) (XFin ?b)] => let E := fresh "E" in destruct (fle (XFin a) (XFin b)) eqn:E; [apply xle_b in E|apply xle_f in E]
  | |- context [flt (XFin ?a) (XFin ?b)] => let E := fresh "E" in destruct (flt (XFin a) (XFin b)) eqn:E; [apply xlt_b in E|apply xlt_f in E]
  | |- context [fgt (XFin ?a) (XFin ?b)] => let E := fresh "E" in destruct (fgt (XFin a) (XFin b)) eqn:E; [apply xgt_b in E|apply xgt_f in E]
  end.

(** weight of the leading run of mean [v] *)
Fixpoint runW (v : R) (cs : list rcen) : R :=
  match cs with
  | [] => 0
  | c :: cs' => if Req_EM_T (fst c) v then snd c + runW v cs' else 0
  end.
Lemma run_weight_emb v cs : forall a, run_weight (XFin v) (XFin a) (map emb cs) = XFin (a + runW v cs).
Proof.
  induction cs as [|c cs IH]; intros a; cbn [map run_weight runW emb mean weight]; [f_equal; lra|].
  destruct (Req_EM_T (fst c) v) as [E|E].
  - rewrite (proj2 (xeq_b _ _) E), xadd_fin, IH. f_equal. lra.
  - rewrite (proj2 (xeq_f _ _) E). f_equal. lra.
Qed.
Lemma runW_bounds v cs : Forall heavy cs -> 0 <= runW v cs <= Wt cs.
Proof.
  induction 1 as [|c cs Hc H IH]; cbn [runW]; [unfold Wt; cbn; lra|]. rewrite Wt_cons. apply posint_ge in Hc.
  destruct (Req_EM_T (fst c) v); lra.
Qed.

(** rank assigned to [v] strictly between two neighbouring centroids *)
Definition between (v P : R) (c d : rcen) : R :=
  let t := (v - fst c) / (fst d - fst c) in
  if Req_EM_T (snd c) 1 then
    if Req_EM_T (snd d) 1 then P + 1 else P + 1 + snd d / 2 * t
  else if Req_EM_T (snd d) 1 then P + snd c / 2 + snd c / 2 * t
  else P + snd c / 2 + (snd c + snd d) / 2 * t.

Lemma interp_emb v P T c d : T <> 0 -> fst c < fst d -> interp_q (XFin v) (XFin T) (XFin P) (emb c) (emb d) = XFin (between v P c d / T).
Proof.
  intros HT Hd. unfold interp_q, between. cbn [emb mean weight]. rewrite xf0, xf1, xf2, xfhalf, !xsub_fin.
  rewrite (proj2 (xgt_b (fst d - fst c) 0)) by lra.
  destruct (Req_EM_T (snd c) 1) as [E1|E1]; destruct (Req_EM_T (snd d) 1) as [E2|E2];
    try rewrite (proj2 (xeq_b _ _) E1); try rewrite (proj2 (xeq_f _ _) E1);
    try rewrite (proj2 (xeq_b _ _) E2); try rewrite (proj2 (xeq_f _ _) E2); cbn [andb];
    repeat (rewrite xadd_fin || rewrite xsub_fin || rewrite xmul_fin || rewrite xdiv_fin by lra).
    all: apply f_equal; rewrite ?E1, ?E2; field; lra.
Qed.

Lemma ratio_01 a b x : a <= x -> x < b -> 0 <= (x - a) / (b - a) < 1.
Proof.
  intros H1 H2. split.
  - apply Rmult_le_reg_r with (b - a); [lra|]. replace ((x - a) / (b - a) * (b - a)) with (x - a) by (field; lra). lra.
  - apply Rmult_lt_reg_r with (b - a); [lra|]. replace ((x - a) / (b - a) * (b - a)) with (x - a) by (field; lra). lra.
Qed.
Lemma ratio_mono a b x y : a < b -> x <= y -> (x - a) / (b - a) <= (y - a) / (b - a).
Proof. intros H1 H2. apply Rmult_le_compat_r; [|lra]. left. apply Rinv_0_lt_compat. lra. Qed.

Definition dhalf (d : rcen) : R := if Req_EM_T (snd d) 1 then 0 else snd d / 2.

Lemma between_range v P c d : heavy c -> heavy d -> fst c <= v -> v < fst d ->
  P + snd c / 2 <= between v P c d <= P + snd c + dhalf d.
Proof.
  intros Hc Hd H1 H2. apply posint_ge in Hc, Hd. pose proof (ratio_01 H1 H2) as Ht. unfold between, dhalf.
  set (t := (v - fst c) / (fst d - fst c)) in *. clearbody t.
  destruct (Req_EM_T (snd c) 1), (Req_EM_T (snd d) 1); split; nra.
Qed.
Lemma between_mono v w P c d : heavy c -> heavy d -> fst c < fst d -> v <= w -> between v P c d <= between w P c d.
Proof.
  intros Hc Hd H1 H2. apply posint_ge in Hc, Hd. pose proof (ratio_mono H1 H2) as Ht. unfold between.
  set (t := (v - fst c) / (fst d - fst c)) in *. set (u := (w - fst c) / (fst d - fst c)) in *. clearbody t u.
  destruct (Req_EM_T (snd c) 1), (Req_EM_T (snd d) 1); nra.
Qed.

(** rank (out of [T]) the scan assigns to [v] *)
Fixpoint lq (v T P : R) (cs : list rcen) : R :=
  match cs with
  | [] => P
  | c :: rest =>
    match rest with
    | [] => if Req_EM_T (snd c) 1 then P else T - 1 / 2
    | d :: _ =>
      if Req_EM_T (fst c) v then
        (if Req_EM_T (runW v cs) 1 then P else P + runW v cs / 2)
      else if Rlt_dec v (fst d) then between v P c d
      else lq v T (P + snd c) rest
    end
  end.

Lemma lq_cons v T P c d cs : lq v T P (c :: d :: cs) =
  if Req_EM_T (fst c) v then
    (if Req_EM_T (runW v (c :: d :: cs)) 1 then P else P + runW v (c :: d :: cs) / 2)
  else if Rlt_dec v (fst d) then between v P c d
  else lq v T (P + snd c) (d :: cs).
Proof. reflexivity. Qed.

Lemma lq_emb v T lst cs : T <> 0 -> Forall heavy cs -> forall P, last_error cs = Some lst -> (forall c, head cs = Some c -> fst c <= v) -> v <= fst lst ->
  est_q_loop (XFin v) (XFin T) (emb lst) (XFin P) (map emb cs) = Ret (XFin (lq v T P cs / T)).
Proof.
  intros HT Hh. induction Hh as [|c cs Hc Hh IH]; intros P Hl Hhd Hv; [discriminate|].
  specialize (Hhd c eq_refl) as Hcv.
  destruct cs as [|d cs].
  - cbn in Hl. injection Hl as ->. cbn [map est_q_loop emb mean weight lq].
    rewrite xf1, xfhalf. assert (v = fst lst) as Hveq by lra. rewrite (proj2 (xeq_b v (fst lst)) Hveq).
    destruct (Req_EM_T (snd lst) 1) as [E|E].
    + rewrite (proj2 (xeq_b _ _) E). rewrite xdiv_fin by lra. reflexivity.
    + rewrite (proj2 (xeq_f _ _) E). rewrite xdiv_fin, xsub_fin by lra. do 2 f_equal. field. lra.
  - change (map emb (c :: d :: cs)) with (emb c :: emb d :: map emb cs).
    assert (emb c :: emb d :: map emb cs = map emb (c :: d :: cs)) as Em by reflexivity.
    cbn [est_q_loop]. rewrite Em. cbn [emb mean weight]. rewrite xf0, xf1, xf2, run_weight_emb, Rplus_0_l.
    rewrite lq_cons.
    destruct (Req_EM_T (fst c) v) as [E|E].
    + rewrite (proj2 (xeq_b _ _) E).
      assert (snd c <= runW v (c :: d :: cs)) as Hr.
      { cbn [runW]. destruct (Req_EM_T (fst c) v); [|lra].
        pose proof (runW_bounds v Hh) as HH. cbn [runW] in HH. lra. }
      apply posint_ge in Hc as Hc1. destruct (Req_EM_T (runW v (c :: d :: cs)) 1) as [E2|E2].
      * rewrite (proj2 (xeq_b _ _) E2). rewrite (proj2 (xeq_b (snd c) (runW v (c :: d :: cs)))) by lra. cbn [andb].
        rewrite xdiv_fin by auto. reflexivity.
      * rewrite (proj2 (xeq_f _ _) E2), andb_false_r. rewrite xdiv_fin, xadd_fin, xdiv_fin by (auto; lra). reflexivity.
    + rewrite (proj2 (xeq_f _ _) E). rewrite (proj2 (xle_b _ _) Hcv). cbn [andb].
      destruct (Rlt_dec v (fst d)) as [E2|E2].
      * rewrite (proj2 (xlt_b _ _) E2). change (Cen (XFin (fst c)) (XFin (snd c))) with (emb c).
        change (Cen (XFin (fst d)) (XFin (snd d))) with (emb d). rewrite interp_emb; auto. lra.
      * rewrite (proj2 (xlt_f _ _) (Rnot_lt_le _ _ E2)). rewrite xadd_fin.
        change (Cen (XFin (fst lst)) (XFin (snd lst))) with (emb lst).
        change (emb d :: map emb cs) with (map emb (d :: cs)). apply IH; auto.
        intros d' [= <-]. lra.
Qed.

Definition lastm (cs : list rcen) : R := match last_error cs with Some c => fst c | None => 0 end.

Lemma lq_range v T cs : Forall heavy cs -> cs <> [] -> forall P, P + Wt cs = T -> (forall c, head cs = Some c -> fst c <= v) -> P <= lq v T P cs <= T.
Proof.
  induction 1 as [|c cs Hc Hh IH]; intros Hne P HT Hhd; [congruence|].
  specialize (Hhd c eq_refl) as Hcv. apply posint_ge in Hc as Hc1.
  rewrite Wt_cons in HT. destruct cs as [|d cs].
  - unfold Wt in HT; cbn in HT. cbn [lq]. destruct (Req_EM_T (snd c) 1); lra.
  - rewrite lq_cons. pose proof (@runW_bounds v (c :: d :: cs) ltac:(constructor; auto)) as Hr. rewrite Wt_cons in Hr.
    pose proof (Wt_nonneg Hh) as HW.
    destruct (Req_EM_T (fst c) v) as [E|E].
    + destruct (Req_EM_T (runW v (c :: d :: cs)) 1); lra.
    + destruct (Rlt_dec v (fst d)) as [E2|E2].
      * pose proof (Forall_inv Hh) as H1. pose proof (Forall_inv_tail Hh) as H2.
        pose proof (@between_range v P c d Hc ltac:(assumption) Hcv E2) as B.
        rewrite Wt_cons in HT, HW. pose proof (Wt_nonneg H2). apply posint_ge in H1.
        assert (dhalf d <= snd d) by (unfold dhalf; destruct (Req_EM_T (snd d) 1); lra). lra.
      * specialize (IH ltac:(discriminate) (P + snd c) ltac:(lra)).
        assert (P + snd c <= lq v T (P + snd c) (d :: cs) <= T) as HH. { apply IH. intros d' [= <-]. lra. } lra.
Qed.

(** lower bounds: above the run of [m], and at or above the head *)
Lemma lq_above_run v T m cs : Forall heavy cs -> rsorted cs -> forall P, P + Wt cs = T -> (forall c, head cs = Some c -> fst c = m) -> m < v -> v <= lastm cs ->
  P + runW m cs / 2 <= lq v T P cs.
Proof.
  induction 1 as [|c cs Hc Hh IH]; intros Hs P HT Hhd Hm Hv; [cbn; lra|].
  specialize (Hhd c eq_refl) as Hcv. apply posint_ge in Hc as Hc1.
  rewrite Wt_cons in HT. destruct cs as [|d cs].
  - cbn in Hv. lra.
  - rewrite lq_cons. destruct (Req_EM_T (fst c) v) as [E|E]; [lra|].
    apply StronglySorted_inv in Hs as [Hs Hs1]. inversion Hs1; subst.
    inversion Hh; subst.
    destruct (Rlt_dec v (fst d)) as [E2|E2].
    + pose proof (@between_range v P c d Hc ltac:(assumption) ltac:(lra) E2) as B.
      assert (runW (fst c) (c :: d :: cs) = snd c) as ->; [|lra].
      cbn [runW]. destruct (Req_EM_T (fst c) (fst c)); [|lra]. destruct (Req_EM_T (fst d) (fst c)); lra.
    + destruct (Req_EM_T (fst d) (fst c)) as [E3|E3].
      * specialize (IH Hs (P + snd c) ltac:(lra)).
        assert (P + snd c + runW (fst c) (d :: cs) / 2 <= lq v (P + (snd c + Wt (d :: cs))) (P + snd c) (d :: cs)) as HH.
        { apply IH; auto. intros d' [= <-]. auto. }
        change (runW (fst c) (c :: d :: cs)) with (if Req_EM_T (fst c) (fst c) then snd c + runW (fst c) (d :: cs) else 0).
        destruct (Req_EM_T (fst c) (fst c)); [|lra]. lra.
      * assert (runW (fst c) (c :: d :: cs) = snd c) as ->.
        { cbn [runW]. destruct (Req_EM_T (fst c) (fst c)); [|lra]. destruct (Req_EM_T (fst d) (fst c)); lra. }
        assert (P + snd c <= lq v (P + (snd c + Wt (d :: cs))) (P + snd c) (d :: cs)) as HH; [|lra].
        apply lq_range; auto; [discriminate|lra|]. intros d' [= <-]. lra.
Qed.

Lemma runW_head cs c : Forall heavy (c :: cs) -> snd c <= runW (fst c) (c :: cs).
Proof. inversion 1; subst. cbn [runW]. destruct (Req_EM_T (fst c) (fst c)); [|lra]. pose proof (runW_bounds (fst c) H3). lra. Qed.

Lemma lq_at_least v T d cs P : Forall heavy (d :: cs) -> rsorted (d :: cs) -> P + Wt (d :: cs) = T -> fst d <= v -> v <= lastm (d :: cs) ->
  P + dhalf d <= lq v T P (d :: cs).
Proof.
  intros Hh Hs HT Hd Hv. pose proof (runW_head Hh) as Hr. inversion Hh as [|? ? Hd1 Hh']; subst. apply posint_ge in Hd1.
  assert (dhalf d <= snd d / 2) as Hdh by (unfold dhalf; destruct (Req_EM_T (snd d) 1); lra).
  destruct (Req_EM_T (fst d) v) as [E|E].
  - destruct cs as [|e cs].
    + cbn [lq]. rewrite Wt_cons. unfold Wt, dhalf; cbn. destruct (Req_EM_T (snd d) 1); lra.
    + rewrite lq_cons. rewrite <- E. destruct (Req_EM_T (fst d) (fst d)); [|lra].
      destruct (Req_EM_T (runW (fst d) (d :: e :: cs)) 1) as [E2|E2]; [|lra].
      assert (snd d = 1) by lra. unfold dhalf. destruct (Req_EM_T (snd d) 1); lra.
  - pose proof (@lq_above_run v (P + Wt (d :: cs)) (fst d) (d :: cs) Hh Hs P eq_refl) as HH.
    assert (P + runW (fst d) (d :: cs) / 2 <= lq v (P + Wt (d :: cs)) P (d :: cs)); [|lra].
    apply HH; auto; [|lra]. intros c [= <-]. auto.
Qed.

Lemma lq_mono v w T cs : v <= w -> Forall heavy cs -> rsorted cs -> forall P, P + Wt cs = T -> (forall c, head cs = Some c -> fst c <= v) -> w <= lastm cs ->
  lq v T P cs <= lq w T P cs.
Proof.
  intros Hvw Hh. induction Hh as [|c cs Hc Hh IH]; intros Hs P HT Hhd Hw; [cbn; lra|].
  specialize (Hhd c eq_refl) as Hcv.
  destruct cs as [|d cs]; [cbn; lra|].
  destruct (Req_EM_T v w) as [->|Hne]; [lra|].
  assert (v < w) as Hlt by lra. clear Hne Hvw.
  apply StronglySorted_inv in Hs as Hs'. destruct Hs' as [Hs2 Hs1]. inversion Hs1; subst. inversion Hh; subst.
  destruct (Req_EM_T (fst c) v) as [E|E].
  - subst v. assert (P + runW (fst c) (c :: d :: cs) / 2 <= lq w (P + Wt (c :: d :: cs)) P (c :: d :: cs)) as HH.
    { apply lq_above_run; auto. intros c' [= <-]. auto. }
    rewrite (lq_cons (fst c)). destruct (Req_EM_T (fst c) (fst c)); [|lra].
    assert (0 <= runW (fst c) (c :: d :: cs)) as HR by (apply runW_bounds; auto).
    destruct (Req_EM_T (runW (fst c) (c :: d :: cs)) 1); lra.
  - rewrite !lq_cons. destruct (Req_EM_T (fst c) v); [lra|]. destruct (Req_EM_T (fst c) w); [lra|].
    destruct (Rlt_dec v (fst d)) as [E1|E1]; destruct (Rlt_dec w (fst d)) as [E2|E2].
    + apply between_mono; auto; lra.
    + pose proof (@between_range v P c d Hc ltac:(assumption) ltac:(lra) E1) as B.
      assert (P + snd c + dhalf d <= lq w (P + Wt (c :: d :: cs)) (P + snd c) (d :: cs)); [|lra].
      apply lq_at_least; auto; [|lra]. rewrite (Wt_cons c). lra.
    + lra.
    + apply IH; auto. { rewrite (Wt_cons c). lra. } intros d' [= <-]. lra.
Qed.

(* ------------------------------------------------------------------ *)
(** ** The whole query *)
(** below the last mean, the rank stays clear of the upper half of the last centroid *)
Lemma runW_last v l cs : Forall heavy cs -> last_error cs = Some l -> v <> fst l -> runW v cs + snd l <= Wt cs.
Proof.
  induction cs as [|c [|d cs] IH]; intros Hh Hl Hv; [discriminate| |].
  - injection Hl as ->. cbn [runW]. rewrite Wt_cons. unfold Wt. cbn. destruct (Req_EM_T (fst l) v); [congruence|lra].
  - rewrite Wt_cons. change (last_error (d :: cs) = Some l) in Hl.
    pose proof (posint_ge (Forall_inv Hh)) as Hc. pose proof (Forall_inv_tail Hh) as Hh'.
    specialize (IH Hh' Hl Hv). pose proof (runW_bounds v Hh') as [Hb _].
    cbn [runW]. cbn [runW] in IH, Hb. destruct (Req_EM_T (fst c) v); lra.
Qed.
Lemma lq_upper v T l cs : Forall heavy cs -> last_error cs = Some l -> forall P, P + Wt cs = T ->
  (forall c, head cs = Some c -> fst c <= v) -> v < fst l -> lq v T P cs <= T - snd l / 2.
Proof.
  induction cs as [|c [|d cs] IH]; intros Hh Hl P HP Hc Hv; [discriminate| |].
  - injection Hl as ->. specialize (Hc _ eq_refl). lra.
  - rewrite lq_cons. pose proof (Forall_inv Hh) as Hhc. pose proof (Forall_inv_tail Hh) as Hh'.
    pose proof (Forall_inv Hh') as Hhd. pose proof (posint_ge Hhc). pose proof (posint_ge Hhd) as Gd.
    pose proof (last_error_In _ Hl) as Hin. assert (heavy l) as Hhl by (rewrite Forall_forall in Hh; auto).
    pose proof (posint_ge Hhl).
    pose proof (@runW_last v l _ Hh Hl ltac:(lra)) as HR. pose proof (runW_bounds v Hh) as [Hb _].
    change (last_error (d :: cs) = Some l) in Hl.
    destruct (Req_EM_T (fst c) v).
    { destruct (Req_EM_T (runW v (c :: d :: cs)) 1); lra. }
    rewrite Wt_cons in HP.
    destruct (Rlt_dec v (fst d)) as [Hd|Hd].
    + pose proof (@between_range v P c d Hhc Hhd (Hc _ eq_refl) Hd) as [_ HB].
      apply Rle_trans with (1 := HB). destruct cs as [|e cs].
      * injection Hl as ->. rewrite Wt_cons in HP. unfold Wt in HP. cbn in HP. unfold dhalf. destruct (Req_EM_T (snd l) 1); lra.
      * rewrite Wt_cons in HP.
        assert (snd l <= Wt (e :: cs)).
        { clear -Hl Hh'. apply Forall_inv_tail in Hh'. change (last_error (e :: cs) = Some l) in Hl. apply last_error_split in Hl as (l' & E).
          rewrite E in *. rewrite Wt_app, Wt_cons. apply Forall_app in Hh' as [A _]. pose proof (Wt_nonneg A). unfold Wt at 2. cbn. lra. }
        unfold dhalf. destruct (Req_EM_T (snd d) 1); lra.
    + apply IH; auto; [lra|]. intros c' [= <-]. lra.
Qed.

Section Query.
  Variables (s : tdigest xr) (cs : list rcen) (lo hi : R).
  Hypothesis HI : tview s cs lo hi.

  Lemma lo_hi : lo <= hi.
  Proof. pose proof (tv_rng HI) as H. destruct cs as [|c cs']; [destruct (tv_ne HI); reflexivity|]. pose proof (Forall_inv H) as Hc. cbn beta in Hc. lra. Qed.
  Lemma total_emb : total_weight s = XFin (Wt cs).
  Proof. unfold total_weight. rewrite (tv_cs HI). apply sum_weights_emb. Qed.

  Definition headc : rcen := match cs with c :: _ => c | [] => (0, 0) end.
  Definition lastc : rcen := match last_error cs with Some c => c | None => (0, 0) end.

  (** rank (out of the number of items) assigned to [v] *)
  Definition rq (v : R) : R :=
    let T := Wt cs in
    if Rlt_dec v lo then 0
    else if Rlt_dec hi v then T
    else match cs with
         | [] | [_] => T / 2
         | _ =>
           if Rlt_dec v (fst headc) then
             if Req_EM_T v lo then 1 / 2 else 1 + (v - lo) / (fst headc - lo) * (snd headc / 2 - 1)
           else if Rlt_dec (fst lastc) v then
             if Req_EM_T v hi then T - 1 / 2 else T - (1 + (hi - v) / (hi - fst lastc) * (snd lastc / 2 - 1))
           else lq v T 0 cs
         end.

  Lemma cs_last : cs <> [] -> last_error cs = Some lastc.
  Proof.
    unfold lastc. intros H. destruct (last_error cs) eqn:E; auto. exfalso. clear -E H.
    induction cs as [|a [|b l] IH]; [congruence|discriminate|]. apply IH; [discriminate|exact E].
  Qed.

  Theorem est_q_value v : td_est_q s (XFin v) = Ret (XFin (rq v / Wt cs)).
  Proof.
    pose proof (tv_heavy HI) as Hh. pose proof (tv_ne HI) as Hne. pose proof (cs_last Hne) as Hl.
    pose proof (posint_ge (Wt_posint Hh Hne)) as HT. pose proof lo_hi as Hlh. pose proof (tv_rng HI) as Hr.
    unfold td_est_q, rq. rewrite total_emb, (tv_cs HI), (tv_min HI), (tv_max HI). unfold headc.
    destruct cs as [|c [|d cs']] eqn:Ecs; [congruence| |].
    - cbn [map]. rewrite !xsub_fin, xf0, xf1, xfhalf. unfold Wt in *; cbn in HT; cbn [map snd fold_right sumR].
      destruct (Rlt_dec v lo) as [E|E].
      { rewrite (proj2 (xlt_b _ _) E). do 2 f_equal. unfold Rdiv. ring. }
      rewrite (proj2 (xlt_f v lo)) by lra.
      destruct (Rlt_dec hi v) as [E2|E2].
      { rewrite (proj2 (xgt_b v hi)) by lra. do 2 f_equal. field. unfold sumR in *. cbn in *. lra. }
      rewrite (proj2 (xgt_f v hi)) by lra. rewrite (proj2 (xle_b (v - lo) (hi - lo))) by lra.
      do 2 f_equal. field. unfold sumR in *. cbn in *. lra.
    - assert (emb c :: emb d :: map emb cs' = map emb (c :: d :: cs')) as Em by reflexivity.
      cbn [map]. rewrite Em. rewrite !xf0, !xf1, !xf2, !xfhalf.
      destruct (Rlt_dec v lo) as [E|E].
      { rewrite (proj2 (xlt_b _ _) E). do 2 f_equal. field. lra. }
      rewrite (proj2 (xlt_f v lo)) by lra.
      destruct (Rlt_dec hi v) as [E2|E2].
      { rewrite (proj2 (xgt_b v hi)) by lra. do 2 f_equal. field. lra. }
      rewrite (proj2 (xgt_f v hi)) by lra.
      assert (last_error (map emb (c :: d :: cs')) = Some (emb lastc)) as ->.
      { destruct (last_error_split _ Hl) as (l' & El). rewrite El, map_app. cbn [map]. apply last_error_app. }
      cbn [unwrap bind]. inversion Hr as [|? ? Hc Hr']; subst.
      assert (lo <= fst lastc <= hi) as Hlr. { rewrite Forall_forall in Hr. apply Hr. now apply last_error_In. }
      cbn [emb mean weight]. rewrite !xsub_fin.
      destruct (Rlt_dec v (fst c)) as [E3|E3].
      { rewrite (proj2 (xlt_b _ _) E3). rewrite (proj2 (xgt_b (fst c - lo) 0)) by lra.
        destruct (Req_EM_T v lo) as [E4|E4].
        - rewrite (proj2 (xeq_b _ _) E4). rewrite xdiv_fin by lra. reflexivity.
        - rewrite (proj2 (xeq_f _ _) E4). repeat (rewrite xsub_fin || rewrite xmul_fin || rewrite xadd_fin || (rewrite xdiv_fin by lra)). reflexivity. }
      rewrite (proj2 (xlt_f v (fst c))) by lra.
      destruct (Rlt_dec (fst lastc) v) as [E4|E4].
      { rewrite (proj2 (xgt_b v (fst lastc))) by lra. rewrite (proj2 (xgt_b (hi - fst lastc) 0)) by lra.
        destruct (Req_EM_T v hi) as [E5|E5].
        - rewrite (proj2 (xeq_b _ _) E5). rewrite xdiv_fin, xsub_fin by lra. do 2 f_equal. field. lra.
        - rewrite (proj2 (xeq_f _ _) E5). repeat (rewrite xsub_fin || rewrite xmul_fin || rewrite xadd_fin || (rewrite xdiv_fin by lra)).
          do 2 f_equal. field. lra. }
      rewrite (proj2 (xgt_f v (fst lastc))) by lra.
      change (Cen (XFin (fst lastc)) (XFin (snd lastc))) with (emb lastc).
      change (est_q_loop (XFin v) (XFin (Wt (c :: d :: cs'))) (emb lastc) (XFin 0) (map emb (c :: d :: cs')) = Ret (XFin (lq v (Wt (c :: d :: cs')) 0 (c :: d :: cs') / Wt (c :: d :: cs')))).
      apply lq_emb; auto; try lra. intros c' [= <-]. lra.
  Qed.

  Lemma last_weight : cs <> [] -> heavy lastc /\ heavy headc /\ In lastc cs /\ In headc cs /\ (snd lastc + snd headc <= Wt cs \/ length cs = 1%nat).
  Proof.
    intros Hne. pose proof (tv_heavy HI) as Hh. pose proof (cs_last Hne) as Hl. apply last_error_split in Hl as (l & E).
    unfold headc. destruct cs as [|c cs']; [congruence|].
    assert (In lastc (c :: cs')) as Hin by (rewrite E; apply in_or_app; right; now left).
    rewrite Forall_forall in Hh.
    split; [auto|]. split; [apply Hh; now left|]. split; auto. split; [now left|].
    destruct l as [|c' l]; [right; rewrite E; reflexivity|left].
    injection E as <- E. rewrite Wt_cons, E, Wt_app.
    assert (0 <= Wt l) by (apply Wt_nonneg, Forall_forall; intros x Hx; apply Hh; right; rewrite E; apply in_or_app; now left).
    unfold Wt at 2. cbn. unfold Wt in *. lra.
  Qed.

  Lemma rq_range v : 0 <= rq v <= Wt cs.
  Proof.
    pose proof (tv_heavy HI) as Hh. pose proof (tv_ne HI) as Hne.
    pose proof (posint_ge (Wt_posint Hh Hne)) as HT. pose proof lo_hi as Hlh. pose proof (tv_rng HI) as Hr.
    destruct (last_weight Hne) as (L1 & L2 & L3 & L4 & L5).
    apply posint_ge in L1, L2. rewrite Forall_forall in Hr. pose proof (Hr _ L3) as R3. pose proof (Hr _ L4) as R4.
    unfold rq. destruct (Rlt_dec v lo); [lra|]. destruct (Rlt_dec hi v); [lra|].
    assert (cs = [] \/ (exists c, cs = [c]) \/ (exists c d l, cs = c :: d :: l)) as [E|[[c E]|(c & d & l & E)]].
    { destruct cs as [|c [|d l]]; eauto 10. }
    - congruence.
    - assert (forall X, (match cs with [] | [_] => Wt cs / 2 | _ => X end) = Wt cs / 2) as EX by (intros; rewrite E; reflexivity).
      rewrite !EX. lra.
    - assert (snd lastc + snd headc <= Wt cs) as HW by (destruct L5 as [|L5]; auto; rewrite E in L5; discriminate).
      assert (forall X, (match cs with [] | [_] => Wt cs / 2 | _ => X end) = X) as -> by (intros; rewrite E; reflexivity).
      destruct (Rlt_dec v (fst headc)) as [E3|E3].
      + destruct (Req_EM_T v lo); [lra|]. pose proof (@ratio_01 lo (fst headc) v ltac:(lra) E3) as Ht.
        set (t := (v - lo) / (fst headc - lo)) in *. clearbody t. nra.
      + destruct (Rlt_dec (fst lastc) v) as [E4|E4].
        * destruct (Req_EM_T v hi); [lra|].
          assert (0 <= (hi - v) / (hi - fst lastc) <= 1) as Ht.
          { apply div_between; lra. }
          set (t := (hi - v) / (hi - fst lastc)) in *. clearbody t. nra.
        * apply lq_range; auto; [lra|]. intros c' Hc'. unfold headc in E3. rewrite E in Hc', E3. injection Hc' as <-. lra.
  Qed.

  (** where the answer is monotone: everywhere except across the lowest centroid when it is a singleton above the minimum,
      and except across the highest centroid when it is below the maximum *)
  Definition mono_low : Prop := fst headc = lo \/ 2 <= snd headc.

  Lemma rq_mono v w : v <= w -> w <= fst lastc -> (mono_low \/ fst headc <= v) -> rq v <= rq w.
  Proof.
    intros Hvw Hw HL.
    pose proof (tv_heavy HI) as Hh. pose proof (tv_ne HI) as Hne.
    pose proof (posint_ge (Wt_posint Hh Hne)) as HT. pose proof lo_hi as Hlh. pose proof (tv_rng HI) as Hr.
    destruct (last_weight Hne) as (L1 & L2 & L3 & L4 & L5). pose proof (tv_sorted HI) as Hs. pose proof (cs_last Hne) as Hl.
    apply posint_ge in L1, L2. rewrite Forall_forall in Hr. pose proof (Hr _ L3) as R3. pose proof (Hr _ L4) as R4.
    pose proof (rq_range w) as RW.
    unfold rq in RW |- *. destruct (Rlt_dec v lo); [lra|]. destruct (Rlt_dec hi v); [lra|].
    destruct (Rlt_dec w lo); [lra|]. destruct (Rlt_dec hi w); [lra|].
    assert (cs = [] \/ (exists c, cs = [c]) \/ (exists c d l, cs = c :: d :: l)) as [E|[[c E]|(c & d & l & E)]].
    { destruct cs as [|c [|d l]]; eauto 10. }
    - congruence.
    - assert (forall X, (match cs with [] | [_] => Wt cs / 2 | _ => X end) = Wt cs / 2) as EX by (intros; rewrite E; reflexivity).
      rewrite !EX. lra.
    - assert (forall X, (match cs with [] | [_] => Wt cs / 2 | _ => X end) = X) as EX by (intros; rewrite E; reflexivity).
      rewrite EX in RW. rewrite !EX. clear EX.
      assert (headc = c) as Ehc by (unfold headc; rewrite E; reflexivity).
      assert (forall x, fst headc <= x -> x <= fst lastc -> dhalf headc <= lq x (Wt cs) 0 cs) as HA.
      { intros x H1 H2. rewrite Ehc in *. rewrite <- (Rplus_0_l (dhalf c)). rewrite E. apply lq_at_least; rewrite <- ?E; auto; try lra.
        unfold lastm. rewrite Hl. auto. }
      destruct (Rlt_dec (fst lastc) w); [lra|]. destruct (Rlt_dec (fst lastc) v); [lra|].
      destruct (Rlt_dec v (fst headc)) as [E3|E3]; destruct (Rlt_dec w (fst headc)) as [E4|E4].
      + destruct HL as [[HL|HL]|HL]; try lra.
        pose proof (@ratio_01 lo (fst headc) v ltac:(lra) E3) as Tv. pose proof (@ratio_01 lo (fst headc) w ltac:(lra) E4) as Tw.
        pose proof (@ratio_mono lo (fst headc) v w ltac:(lra) Hvw) as Tm.
        set (t := (v - lo) / (fst headc - lo)) in *. set (u := (w - lo) / (fst headc - lo)) in *. clearbody t u.
        destruct (Req_EM_T v lo); destruct (Req_EM_T w lo); try lra; nra.
      + destruct HL as [[HL|HL]|HL]; try lra.
        pose proof (@ratio_01 lo (fst headc) v ltac:(lra) E3) as Tv.
        specialize (HA w ltac:(lra) ltac:(lra)). unfold dhalf in HA. destruct (Req_EM_T (snd headc) 1); [lra|].
        set (t := (v - lo) / (fst headc - lo)) in *. clearbody t.
        destruct (Req_EM_T v lo); nra.
      + lra.
      + apply lq_mono; auto; try lra.
        * intros c' Hc'. rewrite E in Hc'. injection Hc' as <-. rewrite <- Ehc. lra.
        * unfold lastm. rewrite Hl. lra.
  Qed.

  (** with both ends well-behaved it is monotone, except when leaving exactly the last centroid's mean *)
  Definition mono_high (v : R) : Prop := fst lastc = hi \/ (2 <= snd lastc /\ v <> fst lastc).

  Lemma rq_mono_full v w : v <= w -> (mono_low \/ fst headc <= v) -> mono_high v -> rq v <= rq w.
  Proof.
    intros Hvw HL HH. destruct (Rle_dec w (fst lastc)) as [Hw|Hw]; [now apply rq_mono|].
    pose proof (tv_heavy HI) as Hh. pose proof (tv_ne HI) as Hne.
    pose proof (posint_ge (Wt_posint Hh Hne)) as HT. pose proof lo_hi as Hlh. pose proof (tv_rng HI) as Hr.
    destruct (last_weight Hne) as (L1 & L2 & L3 & L4 & L5). pose proof (tv_sorted HI) as Hs. pose proof (cs_last Hne) as Hl.
    apply posint_ge in L1, L2. rewrite Forall_forall in Hr. pose proof (Hr _ L3) as R3. pose proof (Hr _ L4) as R4.
    pose proof (rq_range v) as RV. pose proof (rq_range w) as RW.
    destruct (Rlt_dec hi w) as [Hhw|Hhw].
    { assert (rq w = Wt cs) as ->; [|lra]. unfold rq. destruct (Rlt_dec w lo); [lra|]. destruct (Rlt_dec hi w); [reflexivity|lra]. }
    destruct HH as [HH|[HH1 HH2]]; [lra|].
    unfold rq in *. destruct (Rlt_dec v lo); [lra|]. destruct (Rlt_dec hi v); [lra|].
    destruct (Rlt_dec w lo); [lra|]. destruct (Rlt_dec hi w); [lra|].
    assert (cs = [] \/ (exists c, cs = [c]) \/ (exists c d l, cs = c :: d :: l)) as [E|[[c E]|(c & d & l & E)]].
    { destruct cs as [|c [|d l]]; eauto 10. }
    - congruence.
    - assert (forall X, (match cs with [] | [_] => Wt cs / 2 | _ => X end) = Wt cs / 2) as EX by (intros; rewrite E; reflexivity).
      rewrite !EX. lra.
    - assert (forall X, (match cs with [] | [_] => Wt cs / 2 | _ => X end) = X) as EX by (intros; rewrite E; reflexivity).
      rewrite EX in RV, RW. rewrite !EX. clear EX.
      assert (snd lastc + snd headc <= Wt cs) as HW by (destruct L5 as [|L5]; auto; rewrite E in L5; discriminate).
      assert (headc = c) as Ehc by (unfold headc; rewrite E; reflexivity).
      assert (fst headc <= fst lastc) as Hhl.
      { rewrite Ehc. rewrite E in Hs, L3. now apply (sorted_head_le Hs). }
      destruct (Rlt_dec w (fst headc)); [lra|]. destruct (Rlt_dec (fst lastc) w); [|lra].
      assert (0 <= (hi - w) / (hi - fst lastc) <= 1) as Tw by (apply div_between; lra).
      assert (Wt cs - snd lastc / 2 <= (if Req_EM_T w hi then Wt cs - 1 / 2 else Wt cs - (1 + (hi - w) / (hi - fst lastc) * (snd lastc / 2 - 1)))) as Hlow.
      { destruct (Req_EM_T w hi); [lra|]. set (t := (hi - w) / (hi - fst lastc)) in *. clearbody t. nra. }
      destruct (Rlt_dec v (fst headc)) as [E3|E3].
      + apply Rle_trans with (2 := Hlow). destruct (Req_EM_T v lo); [lra|].
        pose proof (@ratio_01 lo (fst headc) v ltac:(lra) E3) as Tv. set (t := (v - lo) / (fst headc - lo)) in *. clearbody t.
        destruct (Rle_dec 2 (snd headc)); nra.
      + destruct (Rlt_dec (fst lastc) v) as [E4|E4].
        * destruct (Req_EM_T v hi) as [->|N].
          { destruct (Req_EM_T w hi); lra. }
          assert (0 <= (hi - v) / (hi - fst lastc) <= 1) as Tv by (apply div_between; lra).
          assert ((hi - w) / (hi - fst lastc) <= (hi - v) / (hi - fst lastc)) as Tm.
          { unfold Rdiv. apply Rmult_le_compat_r; [apply Rlt_le, Rinv_0_lt_compat|]; lra. }
          set (t := (hi - v) / (hi - fst lastc)) in *. set (u := (hi - w) / (hi - fst lastc)) in *. clearbody t u.
          destruct (Req_EM_T w hi); nra.
        * apply Rle_trans with (2 := Hlow). apply lq_upper; auto; try lra.
          intros c' Hc'. rewrite E in Hc'. injection Hc' as <-. rewrite <- Ehc. lra.
  Qed.
End Query.
