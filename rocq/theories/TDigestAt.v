(** The exact answers of a t-digest at and between its centroids, and when all of them are single items. *)
From Coq Require Import List Arith ZArith Lia Bool Permutation Sorted Reals Lra.
From Flocq Require Import Core.
From Verif Require Import Base Floats XReal Digest TDigest Spec FloatFacts History TDigestProofs TDigestProofs2 TDigestExact TDigestExactQ TDigestExactV TDigestHist TDigestTop TDigestAcc TDigestParts.
Set Implicit Arguments.
Local Open Scope R_scope.

(** the rank just after, and just before, the centre of a centroid of weight [w]: a single item sits at one place *)
Definition after (w : R) : R := if Req_EM_T w 1 then 1 else w / 2.
Definition before (w : R) : R := if Req_EM_T w 1 then 0 else w / 2.

Lemma runW_run v run post : Forall (fun c => fst c = v) run -> Forall (fun c => v < fst c) post -> runW v (run ++ post) = Wt run.
Proof.
  intros H H2. induction H as [|c run Hc H IH]; cbn [app runW].
  - destruct H2 as [|c post Hc _]; [reflexivity|]. cbn [runW]. destruct (Req_EM_T (fst c) v); [lra|reflexivity].
  - destruct (Req_EM_T (fst c) v); [|contradiction]. now rewrite IH, Wt_cons.
Qed.
(** the scan passes the centroids below [v] *)
Lemma lq_skip v T pre : forall P c rest, Forall (fun c => fst c < v) pre -> fst c <= v -> lq v T P (pre ++ c :: rest) = lq v T (P + Wt pre) (c :: rest).
Proof.
  induction pre as [|p pre IH]; intros P c rest Hp Hc; [cbn [app]; unfold Wt; cbn [map sumR fold_right]; f_equal; lra|].
  apply Forall_cons_iff in Hp as [Hp1 Hp]. rewrite Wt_cons. replace (P + (snd p + Wt pre)) with (P + snd p + Wt pre) by ring.
  rewrite <- (IH (P + snd p) c rest Hp Hc). destruct pre as [|p2 pre]; cbn [app].
  - rewrite lq_cons. destruct (Req_EM_T (fst p) v); [lra|]. destruct (Rlt_dec v (fst c)); [lra|reflexivity].
  - apply Forall_cons_iff in Hp as [Hp2 Hp]. rewrite lq_cons. destruct (Req_EM_T (fst p) v); [lra|]. destruct (Rlt_dec v (fst p2)); [lra|reflexivity].
Qed.
Lemma between_line v P c d : fst c < fst d ->
  between v P c d = P + after (snd c) + (snd c - after (snd c) + before (snd d)) * ((v - fst c) / (fst d - fst c)).
Proof.
  intros H. unfold between, after, before. destruct (Req_EM_T (snd c) 1) as [E|E]; destruct (Req_EM_T (snd d) 1) as [E2|E2]; rewrite ?E, ?E2; field; lra.
Qed.

Section At.
  Variables (s : tdigest xr) (its : list R) (cs : list rcen) (lo hi : R).
  Hypothesis HI : tinv s its cs lo hi.

  Lemma rq_scan v : (2 <= length cs)%nat -> lo <= v <= hi -> fst (headc cs) <= v -> v <= fst (lastc cs) -> rq cs lo hi v = lq v (Wt cs) 0 cs.
  Proof.
    intros H2 Hv H3 H4. unfold rq. destruct (Rlt_dec v lo); [lra|]. destruct (Rlt_dec hi v); [lra|].
    destruct cs as [|c [|d l]]; [cbn in H2; lia|cbn in H2; lia|].
    destruct (Rlt_dec v (fst (headc (c :: d :: l)))); [lra|]. destruct (Rlt_dec (fst (lastc (c :: d :: l))) v); [lra|]. reflexivity.
  Qed.
  Lemma head_in c rest : cs = c :: rest -> fst (headc cs) = fst c.
  Proof. intros ->. reflexivity. Qed.
  Lemma head_le c : In c cs -> fst (headc cs) <= fst c.
  Proof.
    intros Hin. pose proof (ti_sorted HI) as Hs. destruct cs as [|h l]; [destruct Hin|]. cbn [headc]. destruct Hin as [->|Hin]; [lra|].
    apply StronglySorted_inv in Hs as [_ Hs]. rewrite Forall_forall in Hs. exact (Hs c Hin).
  Qed.
  Lemma last_ge c : In c cs -> fst c <= fst (lastc cs).
  Proof.
    intros Hin. pose proof (ti_sorted HI) as Hs. assert (cs <> []) as Hne by (intros E; rewrite E in Hin; destruct Hin).
    pose proof (cs_last Hne) as Hl. apply last_error_split in Hl as (l & E). rewrite E in Hin. apply in_app_or in Hin as [Hin|[<-|[]]]; [|lra].
    rewrite E in Hs. clear -Hin Hs. induction l as [|x l IH]; [destruct Hin|]. cbn [app] in Hs. apply StronglySorted_inv in Hs as [Hs1 Hs2].
    destruct Hin as [->|Hin]; [|auto]. rewrite Forall_forall in Hs2. apply Hs2, in_or_app. right. now left.
  Qed.
  Lemma in_rng c : In c cs -> lo <= fst c <= hi.
  Proof. intros H. pose proof (ti_rng HI) as Hr. rewrite Forall_forall in Hr. exact (Hr c H). Qed.

  (** at the common mean of a run of centroids *)
  Theorem q_at pre run post v : cs = pre ++ run ++ post -> Forall (fun c => fst c < v) pre -> Forall (fun c => fst c = v) run ->
    Forall (fun c => v < fst c) post -> run <> [] -> (2 <= length cs)%nat -> ((2 <= length run)%nat \/ post <> [] \/ Wt run = 1) ->
    td_est_q s (XFin v) = Ret (XFin ((Wt pre + before (Wt run)) / INR (length its))).
  Proof.
    intros E Hp Hr Hq Hne H2 Hlast. rewrite (est_q_value HI), <- (ti_wt HI). do 3 f_equal.
    destruct run as [|c run]; [congruence|]. pose proof (Forall_inv Hr) as Hc. cbn beta in Hc.
    assert (In c cs) as Hin by (rewrite E; apply in_or_app; right; now left).
    rewrite rq_scan; [|exact H2|rewrite <- Hc; now apply in_rng|rewrite <- Hc; now apply head_le|rewrite <- Hc; now apply last_ge].
    rewrite E at 2. cbn [app]. rewrite lq_skip by (auto; lra). rewrite Rplus_0_l.
    pose proof (runW_run Hr Hq) as HW. change ((c :: run) ++ post) with (c :: (run ++ post)) in HW.
    destruct (run ++ post) as [|d l] eqn:Erp.
    - apply app_eq_nil in Erp as [-> ->]. cbn [lq]. destruct Hlast as [H|[H|H]]; [cbn in H; lia|congruence|].
      assert (snd c = 1) as Hc1 by (unfold Wt in H; cbn in H; lra). destruct (Req_EM_T (snd c) 1); [|contradiction].
      unfold before. rewrite H. destruct (Req_EM_T 1 1); [ring|congruence].
    - rewrite lq_cons. destruct (Req_EM_T (fst c) v); [|contradiction]. rewrite HW. unfold before. destruct (Req_EM_T (Wt (c :: run)) 1); ring.
  Qed.

  (** at the mean of the last centroid, when it is alone there and not a single item *)
  Theorem q_last pre c : cs = pre ++ [c] -> pre <> [] -> Forall (fun d => fst d < fst c) pre -> snd c <> 1 ->
    td_est_q s (XFin (fst c)) = Ret (XFin ((INR (length its) - 1 / 2) / INR (length its))).
  Proof.
    intros E Hne Hp Hc. rewrite (est_q_value HI), <- (ti_wt HI). do 3 f_equal.
    assert (In c cs) as Hin by (rewrite E; apply in_or_app; right; now left).
    rewrite rq_scan; [|rewrite E, app_length; destruct pre; [congruence|cbn; lia]|now apply in_rng|now apply head_le|now apply last_ge].
    rewrite E at 2. rewrite lq_skip by (auto; lra). cbn [lq]. destruct (Req_EM_T (snd c) 1); [contradiction|reflexivity].
  Qed.

  (** between two neighbours: a straight line *)
  Theorem q_between pre c d post v : cs = pre ++ c :: d :: post -> fst c < v < fst d ->
    td_est_q s (XFin v) = Ret (XFin ((Wt pre + after (snd c) + (snd c - after (snd c) + before (snd d)) * ((v - fst c) / (fst d - fst c))) / INR (length its))).
  Proof.
    intros E Hv. rewrite (est_q_value HI), <- (ti_wt HI). do 3 f_equal.
    assert (In c cs) as Hin by (rewrite E; apply in_or_app; right; now left).
    assert (In d cs) as Hin2 by (rewrite E; apply in_or_app; right; right; now left).
    pose proof (in_rng _ Hin). pose proof (in_rng _ Hin2). pose proof (head_le _ Hin). pose proof (last_ge _ Hin2).
    assert (Forall (fun x => fst x < v) pre) as Hp.
    { pose proof (ti_sorted HI) as Hs. rewrite E in Hs. clear -Hs Hv. apply Forall_forall. intros x Hx.
      assert (fst x <= fst c); [|lra]. induction pre as [|p pre IH]; [destruct Hx|]. cbn [app] in Hs. apply StronglySorted_inv in Hs as [Hs1 Hs2].
      destruct Hx as [->|Hx]; [|auto]. rewrite Forall_forall in Hs2. apply Hs2, in_or_app. right. now left. }
    rewrite rq_scan; [|rewrite E, app_length; cbn [length]; lia|lra|lra|lra].
    rewrite E at 2. rewrite lq_skip by (auto; lra). rewrite lq_cons, Rplus_0_l. destruct (Req_EM_T (fst c) v); [lra|]. destruct (Rlt_dec v (fst d)); [|lra].
    apply between_line. lra.
  Qed.

  (** value queries between the centres of two neighbours *)
  Lemma lv_skip t pre : forall cw c d post, heavy c -> Forall heavy pre ->
    (match pre with p :: _ => cw = snd p / 2 | [] => cw = snd c / 2 end) -> forall P, P + Wt pre + snd c / 2 <= t ->
    lv t (P + cw) (pre ++ c :: d :: post) = lv t (P + Wt pre + snd c / 2) (c :: d :: post).
  Proof.
    induction pre as [|p pre IH]; intros cw c d post Hc Hh Hcw P Ht; [subst cw; unfold Wt; cbn [app map sumR fold_right]; f_equal; lra|].
    apply Forall_cons_iff in Hh as [Hp Hh]. apply posint_ge in Hp as Hp1, Hc as Hc1. rewrite Wt_cons in *.
    destruct pre as [|p2 pre]; cbn [app].
    - rewrite lv_cons. unfold Wt in *; cbn [map sumR fold_right] in *. destruct (Rlt_dec t (P + cw + (snd p + snd c) / 2)); [lra|].
      f_equal. lra.
    - rewrite lv_cons. apply Forall_inv in Hh as Hp2. apply posint_ge in Hp2. rewrite Wt_cons in Ht.
      assert (0 <= Wt pre). { clear -Hh. apply Forall_inv_tail in Hh. induction Hh as [|x l Hx H IH]; [unfold Wt; cbn; lra|]. rewrite Wt_cons. apply posint_ge in Hx. lra. }
      destruct (Rlt_dec t (P + cw + (snd p + snd p2) / 2)); [lra|].
      replace (P + cw + (snd p + snd p2) / 2) with ((P + snd p) + snd p2 / 2) by lra.
      change (p2 :: pre ++ c :: d :: post) with ((p2 :: pre) ++ c :: d :: post). rewrite (IH (snd p2 / 2) c d post Hc Hh eq_refl); [|rewrite Wt_cons; lra].
      f_equal. rewrite Wt_cons. lra.
  Qed.
  Theorem v_between pre c d post q : cs = pre ++ c :: d :: post -> (Z.of_nat (length its) < 2 ^ 64)%Z -> 0 <= q <= 1 ->
    let t := INR (length its) * q in let cw := Wt pre + snd c / 2 in
    1 <= t <= INR (length its) - 1 -> cw <= t < cw + (snd c + snd d) / 2 ->
    td_est_v s (XFin q) = Ret (XFin (vbet t cw c d)).
  Proof.
    intros E Hn Hq t cw Ht1 Ht2. pose proof (ti_heavy HI) as Hh. rewrite E in Hh. apply Forall_app in Hh as [Hhp Hh].
    apply Forall_cons_iff in Hh as [Hc Hh]. apply Forall_cons_iff in Hh as [Hd Hh]. apply posint_ge in Hc as Hc1, Hd as Hd1.
    assert (Wt cs = Wt pre + snd c + snd d + Wt post) as EW by (rewrite E, Wt_app, !Wt_cons; ring).
    assert (forall l, Forall heavy l -> 0 <= Wt l) as Hpos.
    { induction 1 as [|x l Hx H IH]; [unfold Wt; cbn; lra|]. rewrite Wt_cons. apply posint_ge in Hx. lra. }
    pose proof (Hpos _ Hhp) as Hp0. pose proof (Hpos _ Hh) as Hq0.
    assert (t = Wt cs * q) as Et by (unfold t; now rewrite (ti_wt HI)).
    assert (snd (lastc cs) / 2 <= snd d / 2 + Wt post) as Hl.
    { assert (cs <> []) as Hne by (rewrite E; destruct pre; discriminate). pose proof (cs_last Hne) as Hl. 
      assert (last_error cs = last_error (d :: post)) as El.
      { rewrite E. clear. induction pre as [|p pre IH]; [reflexivity|]. cbn [app]. destruct (pre ++ c :: d :: post) eqn:X; [destruct pre; discriminate|]. exact IH. }
      rewrite El in Hl. apply last_error_split in Hl as (l & El2).
      destruct l as [|x l]; cbn [app] in El2; injection El2 as Ed Ep; [rewrite <- Ed; lra|].
      rewrite Ep in Hh |- *. rewrite Wt_app. assert (Wt [lastc cs] = snd (lastc cs)) as -> by (unfold Wt; cbn; lra). apply Forall_app in Hh as [Hh1 Hh2]. apply Forall_inv in Hh2. apply posint_ge in Hh2.
      pose proof (Hpos _ Hh1). lra. }
    rewrite (est_v_value HI); [|exact Hq|rewrite (ti_wt HI), INR_IZR_INZ; now apply IZR_lt|right; left; rewrite <- Et, EW; unfold cw in Ht2; lra].
    rewrite <- Et. do 2 f_equal. unfold rv. pose proof (ti_wt HI) as Ew.
    destruct (Rlt_dec t 1); [lra|]. destruct (Rlt_dec (Wt cs - 1) t); [rewrite Ew in *; lra|].
    assert (snd (headc cs) / 2 <= t /\ match pre with p :: _ => snd (headc cs) = snd p | [] => snd (headc cs) = snd c end) as [Hh1 Hh2].
    { rewrite E. destruct pre as [|p pre]; cbn [app headc]; [unfold cw, Wt in Ht2; cbn in Ht2; lra|].
      apply Forall_cons_iff in Hhp as [Hp Hhp]. apply posint_ge in Hp. pose proof (Hpos _ Hhp). unfold cw in Ht2. rewrite Wt_cons in Ht2. lra. }
    destruct (Rlt_dec t (snd (headc cs) / 2)); [lra|]. rewrite E at 2.
    pose proof (@lv_skip t pre (snd (headc cs) / 2) c d post Hc Hhp) as HS.
    assert (match pre with p :: _ => snd (headc cs) / 2 = snd p / 2 | [] => snd (headc cs) / 2 = snd c / 2 end) as Hm by (destruct pre; now rewrite Hh2).
    specialize (HS Hm 0). rewrite !Rplus_0_l in HS. rewrite HS by (fold cw; lra). fold cw. rewrite lv_cons.
    destruct (Rlt_dec t (cw + (snd c + snd d) / 2)); [reflexivity|lra].
  Qed.
End At.

(** the three parts of the way from one centre to the next *)
Lemma vbet_line t cw c d : heavy c -> heavy d -> fst c <= fst d -> let dw := (snd c + snd d) / 2 in
  (t < cw + 1 / 2 -> vbet t cw c d = fst c) /\
  (cw + dw - 1 / 2 <= t -> cw + 1 / 2 <= t -> vbet t cw c d = fst d) /\
  (cw + 1 / 2 <= t -> t < cw + dw - 1 / 2 -> vbet t cw c d = fst c + (fst d - fst c) * ((t - (cw + 1 / 2)) / (dw - 1))).
Proof.
  intros Hc Hd H dw. apply posint_ge in Hc as Hc1, Hd as Hd1. fold dw.
  set (L := fun t => fst c + (fst d - fst c) * ((t - cw - 1 / 2) / (dw - 1))).
  assert (forall u, 1 < dw -> u < cw + 1 / 2 -> Rmax (fst c) (Rmin (L u) (fst d)) = fst c) as H1.
  { intros u Hdw Hu. apply Rmax_left. eapply Rle_trans; [apply Rmin_l|]. unfold L.
    assert (0 < / (dw - 1)) by (apply Rinv_0_lt_compat; lra). assert ((u - cw - 1 / 2) / (dw - 1) <= 0) by (unfold Rdiv at 1; nra). nra. }
  assert (forall u, 1 < dw -> cw + dw - 1 / 2 <= u -> Rmax (fst c) (Rmin (L u) (fst d)) = fst d) as H2.
  { intros u Hdw Hu. assert (fst d <= L u) as HL.
    { unfold L. assert (1 <= (u - cw - 1 / 2) / (dw - 1)). { apply Rmult_le_reg_r with (dw - 1); [lra|]. replace ((u - cw - 1 / 2) / (dw - 1) * (dw - 1)) with (u - cw - 1 / 2) by (field; lra). lra. } nra. }
    rewrite Rmin_right by lra. apply Rmax_right. lra. }
  assert (forall u, 1 < dw -> cw + 1 / 2 <= u -> u < cw + dw - 1 / 2 -> Rmax (fst c) (Rmin (L u) (fst d)) = L u) as H3.
  { intros u Hdw Hu Hu2. assert (0 <= (u - cw - 1 / 2) / (dw - 1) <= 1) as Hr.
    { split; [apply Rmult_le_pos; [lra|apply Rlt_le, Rinv_0_lt_compat; lra]|]. apply Rmult_le_reg_r with (dw - 1); [lra|].
      replace ((u - cw - 1 / 2) / (dw - 1) * (dw - 1)) with (u - cw - 1 / 2) by (field; lra). lra. }
    assert (fst c <= L u <= fst d) by (unfold L; nra). rewrite Rmin_left by lra. apply Rmax_right. lra. }
  assert (L t = fst c + (fst d - fst c) * ((t - (cw + 1 / 2)) / (dw - 1))) as EL by (unfold L; do 2 f_equal; unfold Rdiv; f_equal; lra).
  rewrite <- EL. unfold vbet. fold dw. fold (L t).
  destruct (Req_EM_T (snd c) 1) as [E1|E1]; destruct (Req_EM_T (snd d) 1) as [E2|E2].
  - assert (dw = 1) by (unfold dw; lra). destruct (Rlt_dec (t - cw) (1 / 2)); repeat split; intros; lra.
  - assert (1 < dw) by (unfold dw; lra). repeat split; auto.
  - assert (1 < dw) by (unfold dw; lra). repeat split; auto.
  - assert (1 < dw) by (unfold dw; lra). repeat split; auto.
Qed.

(** ** all centroids are single items *)
Section Single.
  Variables (s : tdigest xr) (its : list R) (xs : list R) (lo hi : R).
  Hypothesis HI : tinv s its (map ucen xs) lo hi.
  Hypothesis HP : Permutation xs its.
  Notation n := (INR (length its)).

  Lemma xs_sorted : StronglySorted Rle xs.
  Proof. apply rsorted_ucen. exact (ti_sorted HI). Qed.
  Lemma wt_ucen l : Wt (map ucen l) = size l.
  Proof. apply ucen_sums. Qed.

  Lemma sorted_split v : exists a b c, xs = a ++ b ++ c /\ Forall (fun x => x < v) a /\ Forall (fun x => x = v) b /\ Forall (fun x => v < x) c.
  Proof.
    pose proof xs_sorted as Hs. clear HP HI. induction Hs as [|x xs Hs IH Hx]; [exists [], [], []; repeat split; constructor|].
    destruct IH as (a & b & c & -> & A & B & C). destruct (Rtotal_order x v) as [H|[H|H]].
    - exists (x :: a), b, c. repeat split; auto.
    - destruct a as [|y a]; [exists [], (x :: b), c; repeat split; auto|]. exfalso. apply Forall_inv in A, Hx. lra.
    - destruct a as [|y a]; [|exfalso; apply Forall_inv in A, Hx; lra].
      destruct b as [|y b]; [exists [], [], (x :: c); repeat split; auto|]. exfalso. apply Forall_inv in B, Hx. lra.
  Qed.
  Lemma split_counts v a b c : xs = a ++ b ++ c -> Forall (fun x => x < v) a -> Forall (fun x => x = v) b -> Forall (fun x => v < x) c ->
    below v its = size a /\ upto v its = size a + size b.
  Proof.
    intros E A B C. rewrite <- (below_perm v HP), <- (upto_perm v HP), E, !below_app, !upto_app. rewrite Forall_forall in *.
    rewrite (@below_all v a) by exact A. rewrite (@upto_all v a) by (intros x Hx; specialize (A x Hx); lra).
    rewrite (@below_none v b) by (intros x Hx; rewrite (B x Hx); lra). rewrite (@upto_all v b) by (intros x Hx; rewrite (B x Hx); lra).
    rewrite (@below_none v c) by (intros x Hx; specialize (C x Hx); lra).
    assert (upto v c = 0) as ->. { unfold upto. clear -C. induction c as [|x c IH]; [reflexivity|]. cbn [filter]. destruct (Rle_dec x v); [specialize (C x (or_introl eq_refl)); lra|]. apply IH. intros y Hy. apply C. now right. }
    lra.
  Qed.

  (** the rank of an absent or unique value counts the smaller items; of a repeated one the middle of its copies *)
  Theorem single_q v : (2 <= length its)%nat ->
    td_est_q s (XFin v) = Ret (XFin ((if Rle_dec (upto v its - below v its) 1 then below v its else (below v its + upto v its) / 2) / n)).
  Proof.
    intros H2. destruct (sorted_split v) as (a & b & c & E & A & B & C). destruct (split_counts E A B C) as [Eb Eu]. rewrite Eb, Eu.
    replace (size a + size b - size a) with (size b) by ring.
    assert (length xs = length its) as El by (apply Permutation_length; exact HP).
    destruct b as [|y b].
    - cbn [app] in E. destruct (Rle_dec (size (@nil R)) 1) as [_|N]; [|exfalso; apply N; cbn; lra].
      destruct a as [|a0 a] using rev_ind; [|clear IHa].
      + rewrite (est_q_value HI). unfold rq. pose proof (ti_lo HI) as [Hlo _]. rewrite <- (Permutation_in' eq_refl HP) in Hlo.
        cbn [app] in E. rewrite E in Hlo. rewrite Forall_forall in C. specialize (C lo Hlo). destruct (Rlt_dec v lo); [|lra].
        do 2 f_equal. cbn [length INR]. lra.
      + destruct c as [|c0 c].
        * rewrite (est_q_value HI). unfold rq. rewrite app_nil_r in E. pose proof (ti_hi HI) as [Hhi _]. rewrite <- (Permutation_in' eq_refl HP), E in Hhi.
          rewrite Forall_forall in A. specialize (A hi Hhi). pose proof (ti_lo HI) as [_ Hlo]. pose proof (proj1 (ti_hi HI)) as Hh. specialize (Hlo hi Hh).
          destruct (Rlt_dec v lo); [lra|]. destruct (Rlt_dec hi v); [|lra]. rewrite (ti_wt HI), <- El, E. reflexivity.
        * apply Forall_app in A as [A1 A2]. apply Forall_inv in A2. apply Forall_inv in C.
          assert (map ucen xs = map ucen a ++ ucen a0 :: ucen c0 :: map ucen c) as Ec by (rewrite E, !map_app; cbn [map]; rewrite <- app_assoc; reflexivity).
          rewrite (@q_between s its (map ucen xs) lo hi HI (map ucen a) (ucen a0) (ucen c0) (map ucen c) v Ec) by (cbn [ucen fst]; lra). do 3 f_equal. rewrite wt_ucen, size_app. unfold after, before. cbn [ucen fst snd length INR].
          destruct (Req_EM_T 1 1); [|congruence]. lra.
    - assert (map ucen xs = map ucen a ++ map ucen (y :: b) ++ map ucen c) as Ec by (rewrite E, !map_app; reflexivity).
      rewrite (@q_at s its (map ucen xs) lo hi HI (map ucen a) (map ucen (y :: b)) (map ucen c) v Ec).
      + do 3 f_equal. rewrite !wt_ucen. unfold before. assert (1 <= size (y :: b)) by (apply size_pos; discriminate).
        destruct (Req_EM_T (size (y :: b)) 1); destruct (Rle_dec (size (y :: b)) 1); lra.
      + apply Forall_map. exact A.
      + apply Forall_map. exact B.
      + apply Forall_map. exact C.
      + discriminate.
      + rewrite map_length. lia.
      + destruct b as [|z b]; [|left; cbn [map length]; lia]. right; right. rewrite wt_ucen. reflexivity.
  Qed.

  Lemma single_lv t : forall l P, l <> [] -> 0 <= t - P -> t - P <= size l - 1 ->
    exists a x b, l = a ++ x :: b /\ lv t (P + 1 / 2) (map ucen l) = x /\ size a <= t - P < size a + 1.
  Proof.
    induction l as [|x l IH]; intros P Hne H0 H1; [congruence|]. destruct l as [|y l].
    - exists [], x, []. cbn in *. split; [reflexivity|]. split; [reflexivity|]. lra.
    - change (map ucen (x :: y :: l)) with (ucen x :: ucen y :: map ucen l). rewrite lv_cons. cbn [ucen snd].
      replace (P + 1 / 2 + (1 + 1) / 2) with (P + 1 + 1 / 2) by field.
      destruct (Rlt_dec t (P + 1 + 1 / 2)) as [Ht|Ht].
      + unfold vbet. cbn [ucen fst snd]. destruct (Req_EM_T 1 1); [|congruence]. destruct (Rlt_dec (t - (P + 1 / 2)) (1 / 2)).
        * exists [], x, (y :: l). cbn [app length INR]. split; [reflexivity|]. split; [reflexivity|]. lra.
        * exists [x], y, l. cbn [app length INR]. split; [reflexivity|]. split; [reflexivity|]. lra.
      + destruct (IH (P + 1)) as (a & z & b & E & Ez & Hz); [discriminate|lra| |].
        * change (size (x :: y :: l)) with (INR (S (length (y :: l)))) in H1. rewrite S_INR in H1. lra.
        * exists (x :: a), z, b. rewrite E. split; [reflexivity|]. split; [exact Ez|]. cbn [length]. rewrite S_INR. lra.
  Qed.

  (** the answer is the item of rank floor(n q) *)
  Theorem single_v q : (Z.of_nat (length its) < 2 ^ 64)%Z -> 0 <= q <= 1 -> exists x, td_est_v s (XFin q) = Ret (XFin x) /\ In x its /\
    below x its <= n * q /\ (n * q < upto x its \/ x = hi).
  Proof.
    intros Hn Hq. assert (its <> []) as Hne by (intros E; pose proof (proj1 (ti_lo HI)) as H; rewrite E in H; destruct H).
    pose proof (size_pos Hne) as Hs. pose proof (ti_wt HI) as Ew. pose proof xs_sorted as Hso.
    assert (length xs = length its) as El by (apply Permutation_length; exact HP).
    assert (xs <> []) as Hx by (intros E; rewrite E in El; destruct its; [congruence|discriminate]).
    assert (snd (lastc (map ucen xs)) = 1) as Hl.
    { assert (map ucen xs <> []) as Hm by (destruct xs; [congruence|discriminate]). pose proof (cs_last Hm) as H. apply last_error_In in H. apply in_map_iff in H as (y & <- & _). reflexivity. }
    rewrite (est_v_value HI); [|exact Hq|rewrite Ew, INR_IZR_INZ; now apply IZR_lt|left; exact Hl]. rewrite Ew.
    set (t := n * q). eexists. split; [reflexivity|]. unfold rv. rewrite Ew.
    assert (snd (headc (map ucen xs)) = 1) as Hh by (destruct xs; [congruence|reflexivity]). rewrite Hh.
    destruct (Rlt_dec t 1) as [T1|T1].
    { pose proof (ti_lo HI) as [Ilo Hlo]. split; [exact Ilo|]. rewrite (@below_none lo) by exact Hlo. pose proof (below_in _ _ Ilo). split; [unfold t; nra|left; lra]. }
    destruct (Rlt_dec t (1 / 2)) as [T3|T3]; [lra|]. destruct (Rlt_dec (INR (length its) - 1) t) as [T2|T2].
    { pose proof (ti_hi HI) as [Ihi Hhi]. split; [exact Ihi|]. pose proof (below_in _ _ Ihi). split; [lra|now right]. }
    destruct (@single_lv t xs 0 Hx) as (a & x & b & E & Ex & Ht); [lra|rewrite El; lra|]. rewrite Rplus_0_l, Rminus_0_r in *. rewrite Ex.
    split; [apply (Permutation_in _ HP); rewrite E; apply in_or_app; right; now left|].
    rewrite <- (below_perm x HP), <- (upto_perm x HP). rewrite E in Hso |- *. rewrite below_app, upto_app.
    assert (forall y, In y a -> y <= x) as Ha.
    { clear -Hso. induction a as [|z a IH]; intros y [].
      - subst. cbn [app] in Hso. apply StronglySorted_inv in Hso as [_ Hf]. rewrite Forall_forall in Hf. apply Hf, in_or_app. right. now left.
      - cbn [app] in Hso. apply StronglySorted_inv in Hso as [Hs _]. auto. }
    assert (forall y, In y (x :: b) -> x <= y) as Hb.
    { clear -Hso. induction a as [|z a IH]; cbn [app] in Hso; apply StronglySorted_inv in Hso as [Hs Hf]; [|auto]. intros y [<-|Hy]; [lra|]. rewrite Forall_forall in Hf. auto. }
    rewrite (@below_none x (x :: b)) by exact Hb. rewrite (@upto_all x a) by exact Ha. pose proof (below_le x a).
    pose proof (below_in _ _ (or_introl eq_refl : In x (x :: b))). split; [lra|left; lra].
  Qed.
End Single.
