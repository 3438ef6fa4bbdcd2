(** Value queries of the t-digest in exact arithmetic: value, range, where they are monotone. *)
From Coq Require Import List Arith ZArith Lia Bool Permutation Sorted Reals Lra.
From Flocq Require Import Core.
From Verif Require Import Base Floats XReal Digest TDigest Spec FloatFacts History TDigestProofs TDigestProofs2 TDigestExact TDigestExactQ.
Set Implicit Arguments.
Local Open Scope R_scope.

(** the value between two neighbouring centroids at rank [t]; [cw] is the rank of the first one's centre *)
Definition vbet (t cw : R) (c d : rcen) : R :=
  if Req_EM_T (snd c) 1 then
    if Req_EM_T (snd d) 1 then (if Rlt_dec (t - cw) (1 / 2) then fst c else fst d)
    else Rmax (fst c) (Rmin (fst c + (fst d - fst c) * ((t - cw - 1 / 2) / ((snd c + snd d) / 2 - 1))) (fst d))
  else Rmax (fst c) (Rmin (fst c + (fst d - fst c) * ((t - cw - 1 / 2) / ((snd c + snd d) / 2 - 1))) (fst d)).

Fixpoint lv (t cw : R) (cs : list rcen) : R :=
  match cs with
  | [] => 0
  | c :: rest =>
    match rest with
    | [] => fst c
    | d :: _ => if Rlt_dec t (cw + (snd c + snd d) / 2) then vbet t cw c d else lv t (cw + (snd c + snd d) / 2) rest
    end
  end.

Lemma vbet_range t cw c d : fst c <= fst d -> fst c <= vbet t cw c d <= fst d.
Proof.
  intros H. unfold vbet.
  set (X := fst c + _). clearbody X.
  assert (fst c <= Rmax (fst c) (Rmin X (fst d)) <= fst d) as HX.
  { split; [apply Rmax_l|]. apply Rmax_lub; auto. apply Rmin_r. }
  destruct (Req_EM_T (snd c) 1), (Req_EM_T (snd d) 1); auto. destruct (Rlt_dec (t - cw) (1 / 2)); lra.
Qed.

Lemma clamp_mono a b x y : x <= y -> Rmax a (Rmin x b) <= Rmax a (Rmin y b).
Proof. intros H. unfold Rmin. destruct (Rle_dec x b), (Rle_dec y b); unfold Rmax; repeat match goal with |- context [Rle_dec ?a ?b] => destruct (Rle_dec a b) end; lra. Qed.

Lemma vbet_mono t u cw c d : heavy c -> heavy d -> fst c <= fst d -> t <= u -> vbet t cw c d <= vbet u cw c d.
Proof.
  intros Hc Hd H Htu. unfold vbet.
  assert (snd c <> 1 \/ snd d <> 1 -> (snd c + snd d) / 2 - 1 > 0) as Hdw.
  { apply posint_ge in Hc, Hd. intros [HH|HH]; lra. }
  assert (snd c <> 1 \/ snd d <> 1 -> Rmax (fst c) (Rmin (fst c + (fst d - fst c) * ((t - cw - 1 / 2) / ((snd c + snd d) / 2 - 1))) (fst d)) <=
          Rmax (fst c) (Rmin (fst c + (fst d - fst c) * ((u - cw - 1 / 2) / ((snd c + snd d) / 2 - 1))) (fst d))) as HX.
  { intros HH. specialize (Hdw HH). apply clamp_mono. apply Rplus_le_compat_l.
    apply Rmult_le_compat_l; [lra|]. apply Rmult_le_compat_r; [|lra]. left. now apply Rinv_0_lt_compat. }
  destruct (Req_EM_T (snd c) 1), (Req_EM_T (snd d) 1); auto.
  destruct (Rlt_dec (t - cw) (1 / 2)), (Rlt_dec (u - cw) (1 / 2)); lra.
Qed.

Lemma avg_emb c d t cw : heavy c -> heavy d -> fst c <= fst d -> cw <= t -> t < cw + (snd c + snd d) / 2 ->
  (if feq (XFin (snd c)) f1 && flt (fsub (XFin t) (XFin cw)) fhalf then XFin (fst c)
   else if feq (XFin (snd d)) f1 && fle (fsub (fadd (XFin cw) (XFin ((snd c + snd d) / 2))) (XFin t)) fhalf then XFin (fst d)
   else weighted_average (XFin (fst c)) (fsub (fsub (fadd (XFin cw) (XFin ((snd c + snd d) / 2))) (XFin t)) fhalf)
                         (XFin (fst d)) (fsub (fsub (XFin t) (XFin cw)) fhalf)) = XFin (vbet t cw c d).
Proof.
  intros Hc Hd H H1 H2. rewrite xf1, xfhalf, xadd_fin, !xsub_fin.
  apply posint_ge in Hc, Hd.
  assert (forall K, K > 0 -> K = (snd c + snd d) / 2 - 1 ->
    weighted_average (XFin (fst c)) (XFin (cw + (snd c + snd d) / 2 - t - 1 / 2)) (XFin (fst d)) (XFin (t - cw - 1 / 2)) =
    XFin (Rmax (fst c) (Rmin (fst c + (fst d - fst c) * ((t - cw - 1 / 2) / ((snd c + snd d) / 2 - 1))) (fst d)))) as HW.
  { intros K HK EK. unfold weighted_average. rewrite !xmul_fin, !xadd_fin, xdiv_fin by lra.
    rewrite !xmax_fin, !xmin_fin, xmax_fin. apply f_equal.
    rewrite (Rmin_left (fst c) (fst d)), (Rmax_right (fst c) (fst d)) by lra. f_equal. f_equal. field. lra. }
  unfold vbet.
  destruct (Req_EM_T (snd c) 1) as [Ec|Ec]; destruct (Req_EM_T (snd d) 1) as [Ed|Ed];
    try rewrite (proj2 (xeq_b _ _) Ec); try rewrite (proj2 (xeq_f _ _) Ec);
    try rewrite (proj2 (xeq_b _ _) Ed); try rewrite (proj2 (xeq_f _ _) Ed); cbn [andb].
  - destruct (Rlt_dec (t - cw) (1 / 2)) as [E|E].
    + now rewrite (proj2 (xlt_b _ _) E).
    + rewrite (proj2 (xlt_f (t - cw) (1 / 2))) by lra. now rewrite (proj2 (xle_b (cw + (snd c + snd d) / 2 - t) (1 / 2))) by lra.
  - destruct (flt (XFin (t - cw)) (XFin (1 / 2))) eqn:E.
    + apply xlt_b in E. apply f_equal. symmetry. apply Rmax_left.
      eapply Rle_trans; [apply Rmin_l|].
      assert ((t - cw - 1 / 2) / ((snd c + snd d) / 2 - 1) <= 0); [|nra].
      apply Rmult_le_reg_r with ((snd c + snd d) / 2 - 1); [lra|].
      replace ((t - cw - 1 / 2) / ((snd c + snd d) / 2 - 1) * ((snd c + snd d) / 2 - 1)) with (t - cw - 1 / 2) by (field; lra). lra.
    + apply HW with (K := (snd c + snd d) / 2 - 1); lra.
  - destruct (fle (XFin (cw + (snd c + snd d) / 2 - t)) (XFin (1 / 2))) eqn:E.
    + apply xle_b in E. apply f_equal. symmetry. rewrite Rmin_right; [apply Rmax_right; lra|].
      assert (1 <= (t - cw - 1 / 2) / ((snd c + snd d) / 2 - 1)); [|nra].
      apply Rmult_le_reg_r with ((snd c + snd d) / 2 - 1); [lra|].
      replace ((t - cw - 1 / 2) / ((snd c + snd d) / 2 - 1) * ((snd c + snd d) / 2 - 1)) with (t - cw - 1 / 2) by (field; lra). lra.
    + apply HW with (K := (snd c + snd d) / 2 - 1); lra.
  - apply HW with (K := (snd c + snd d) / 2 - 1); lra.
Qed.

Lemma lv_cons t cw c d cs : lv t cw (c :: d :: cs) =
  if Rlt_dec t (cw + (snd c + snd d) / 2) then vbet t cw c d else lv t (cw + (snd c + snd d) / 2) (d :: cs).
Proof. reflexivity. Qed.

(** rank of the centre of the last centroid, from the rank of the first's centre *)
Fixpoint endw (cw : R) (cs : list rcen) : R :=
  match cs with
  | [] => cw
  | c :: rest => match rest with [] => cw | d :: _ => endw (cw + (snd c + snd d) / 2) rest end
  end.

Lemma lv_emb t cs : Forall heavy cs -> rsorted cs -> forall iters cw, cw <= t -> t < endw cw cs -> (length cs <= iters)%nat ->
  est_v_loop iters (XFin t) (XFin cw) (map emb cs) = Ret (Some (XFin (lv t cw cs))).
Proof.
  induction 1 as [|c cs Hc Hh IH]; intros Hs iters cw H1 H2 Hi; [cbn in H2; lra|].
  destruct cs as [|d cs]; [cbn in H2; lra|].
  destruct iters as [|iters]; [cbn in Hi; lia|].
  apply StronglySorted_inv in Hs as [Hs Hs1]. pose proof (Forall_inv Hs1) as Hcd. cbn beta in Hcd. pose proof (Forall_inv Hh) as Hd.
  rewrite lv_cons. change (map emb (c :: d :: cs)) with (emb c :: emb d :: map emb cs).
  cbn [est_v_loop emb mean weight]. rewrite xf2, xadd_fin, xdiv_fin by lra.
  destruct (Rlt_dec t (cw + (snd c + snd d) / 2)) as [E|E].
  - rewrite avg_emb by auto. rewrite xadd_fin, (proj2 (xgt_b (cw + (snd c + snd d) / 2) t)) by lra. reflexivity.
  - rewrite xadd_fin, (proj2 (xgt_f (cw + (snd c + snd d) / 2) t)) by lra.
    change (emb d :: map emb cs) with (map emb (d :: cs)). apply IH; auto; try lra. cbn [length] in *. lia.
Qed.

Lemma lv_range t cs : rsorted cs -> forall cw c0 cl, head cs = Some c0 -> last_error cs = Some cl -> fst c0 <= lv t cw cs <= fst cl.
Proof.
  induction cs as [|c cs IH]; intros Hs cw c0 cl H0 Hl; [discriminate|]. injection H0 as ->.
  destruct cs as [|d cs]; [injection Hl as ->; cbn; lra|].
  apply StronglySorted_inv in Hs as [Hs Hs1]. pose proof (Forall_inv Hs1) as Hcd. cbn beta in Hcd.
  rewrite lv_cons. destruct (Rlt_dec t (cw + (snd c0 + snd d) / 2)) as [E|E].
  - pose proof (@vbet_range t cw c0 d Hcd). assert (fst d <= fst cl); [|lra].
    assert (In cl (d :: cs)) as Hin by (apply last_error_In; exact Hl).
    destruct Hin as [->|Hin]; [lra|]. apply StronglySorted_inv in Hs as [_ Hs]. rewrite Forall_forall in Hs. auto.
  - specialize (IH Hs (cw + (snd c0 + snd d) / 2) d cl eq_refl Hl). lra.
Qed.

Lemma lv_mono t u cs : t <= u -> Forall heavy cs -> rsorted cs -> forall cw, lv t cw cs <= lv u cw cs.
Proof.
  intros Htu Hh. induction Hh as [|c cs Hc Hh IH]; intros Hs cw; [cbn; lra|].
  destruct cs as [|d cs]; [cbn; lra|].
  apply StronglySorted_inv in Hs as [Hs Hs1]. pose proof (Forall_inv Hs1) as Hcd. cbn beta in Hcd. pose proof (Forall_inv Hh) as Hd.
  rewrite !lv_cons. destruct (Rlt_dec t (cw + (snd c + snd d) / 2)) as [E|E]; destruct (Rlt_dec u (cw + (snd c + snd d) / 2)) as [E2|E2]; try lra.
  - now apply vbet_mono.
  - pose proof (@vbet_range t cw c d Hcd).
    assert (exists cl, last_error (d :: cs) = Some cl) as [cl Hl].
    { clear. revert d. induction cs as [|e cs IH]; intros d; [exists d; reflexivity|]. destruct (IH e) as [x Hx]. exists x. exact Hx. }
    pose proof (@lv_range u (d :: cs) Hs (cw + (snd c + snd d) / 2) d cl eq_refl Hl). lra.
  - now apply IH.
Qed.

Lemma endw_val cs : forall cw cl c0, head cs = Some c0 -> last_error cs = Some cl -> endw cw cs = cw - snd c0 / 2 + Wt cs - snd cl / 2.
Proof.
  induction cs as [|c cs IH]; intros cw cl c0 H0 Hl; [discriminate|]. injection H0 as ->.
  destruct cs as [|d cs].
  - injection Hl as ->. cbn. unfold Wt. cbn. lra.
  - change (endw cw (c0 :: d :: cs)) with (endw (cw + (snd c0 + snd d) / 2) (d :: cs)). rewrite (IH _ cl d eq_refl Hl), (Wt_cons c0). lra.
Qed.

Section Query.
  Variables (s : tdigest xr) (cs : list rcen) (lo hi : R).
  Hypothesis HI : tview s cs lo hi.
  Notation hd := (headc cs). Notation lt := (lastc cs). Notation T := (Wt cs).

  (** the answer at rank [t = q * n] outside the last half centroid *)
  Definition rv (t : R) : R :=
    if Rlt_dec t 1 then lo
    else if Rlt_dec t (snd hd / 2) then lo + (t - 1) / (snd hd / 2 - 1) * (fst hd - lo)
    else if Rlt_dec (T - 1) t then hi
    else lv t (snd hd / 2) cs.

  (** the rank is not in the upper half of the last centroid (other than the very last position) *)
  Definition clear_of_last (t : R) : Prop := snd lt = 1 \/ t < T - snd lt / 2 \/ T - 1 < t.

  Lemma last_half t : clear_of_last t -> 0 <= t -> snd hd / 2 <= t -> 1 <= t -> t <= T - 1 -> t < T - snd lt / 2 /\ (2 <= length cs)%nat.
  Proof.
    intros H H0 H1 H2 H3. pose proof (tv_heavy HI) as Hh. pose proof (tv_ne HI) as Hne.
    destruct (last_weight HI Hne) as (L1 & L2 & L3 & L4 & L5). apply posint_ge in L1, L2.
    assert (t < T - snd lt / 2) as Ht by (destruct H as [H|[H|H]]; lra). split; auto.
    destruct cs as [|c [|d l]] eqn:E; [congruence| |cbn; lia]. exfalso.
    unfold lastc, headc, Wt in *; cbn in *. lra.
  Qed.

  Theorem est_v_value q : 0 <= q <= 1 -> T < IZR (2 ^ 64) -> clear_of_last (T * q) -> td_est_v s (XFin q) = Ret (XFin (rv (T * q))).
  Proof.
    intros Hq H64 Hc. pose proof (tv_heavy HI) as Hh. pose proof (tv_ne HI) as Hne.
    pose proof (posint_ge (Wt_posint Hh Hne)) as HT. pose proof (Wt_posint Hh Hne) as HTi.
    destruct (last_weight HI Hne) as (L1 & L2 & L3 & L4 & L5). apply posint_ge in L1 as L1', L2 as L2'.
    assert (0 <= T * q <= T) as Ht by nra.
    unfold td_est_v. rewrite (total_emb HI), xmul_fin, (tv_min HI), (tv_max HI), (tv_cs HI), xf1, xf2.
    unfold rv. set (t := T * q) in *. clearbody t.
    destruct (Rlt_dec t 1) as [E1|E1].
    { now rewrite (proj2 (xlt_b _ _) E1). }
    rewrite (proj2 (xlt_f t 1)) by lra.
    assert (head (map emb cs) = Some (emb hd)) as -> by (unfold headc; destruct cs; [congruence|reflexivity]).
    cbn [unwrap bind emb mean weight]. rewrite xdiv_fin by lra.
    destruct (Rlt_dec t (snd hd / 2)) as [E2|E2].
    { rewrite (proj2 (xgt_b (snd hd) 1)) by lra. rewrite (proj2 (xlt_b _ _) E2). cbn [andb].
      rewrite !xsub_fin, xdiv_fin, xmul_fin, xadd_fin by lra. reflexivity. }
    rewrite (proj2 (xlt_f t (snd hd / 2))), andb_false_r by lra. rewrite !xsub_fin.
    destruct (Rlt_dec (T - 1) t) as [E3|E3].
    { now rewrite (proj2 (xgt_b t (T - 1))) by lra. }
    rewrite (proj2 (xgt_f t (T - 1))) by lra.
    assert (last_error (map emb cs) = Some (emb lt)) as ->.
    { destruct (last_error_split _ (cs_last Hne)) as (l' & El). rewrite El at 1. rewrite map_app. cbn [map]. apply last_error_app. }
    cbn [unwrap bind emb mean weight]. rewrite !xdiv_fin by lra.
    destruct (last_half Hc) as [E4 E5]; try lra.
    rewrite (proj2 (xle_f (T - t) (snd lt / 2))), andb_false_r by lra.
    unfold to_usize. destruct HTi as (z & Hz & Ez).
    assert (ftoZ (XFin T) = Some z) as ->.
    { cbn [ftoZ xr_ops xtoZ]. rewrite Ez in *. rewrite !Rlt_bool_true by lra. cbn [andb]. now rewrite Ztrunc_IZR. }
    cbn [unwrap liftM bind].
    rewrite lv_emb; auto.
    - apply (tv_sorted HI).
    - lra.
    - rewrite (@endw_val cs _ lt hd); [lra| |apply (cs_last Hne)]. unfold headc. destruct cs; [congruence|reflexivity].
    - pose proof (Wt_ge Hh) as HW. rewrite Ez, INR_IZR_INZ in HW. apply le_IZR in HW. lia.
  Qed.

  Lemma frac_01 t w : 1 <= t -> t < w -> 0 <= (t - 1) / (w - 1) <= 1.
  Proof. intros H1 H2. apply div_between; lra. Qed.

  Lemma rv_range t : 0 <= t -> lo <= rv t <= hi.
  Proof.
    intros H0. pose proof (tv_ne HI) as Hne. destruct (last_weight HI Hne) as (L1 & L2 & L3 & L4 & L5).
    pose proof (lo_hi HI). pose proof (tv_rng HI) as Hr. rewrite Forall_forall in Hr. pose proof (Hr _ L3). pose proof (Hr _ L4).
    unfold rv. destruct (Rlt_dec t 1); [lra|]. destruct (Rlt_dec t (snd hd / 2)).
    - pose proof (@frac_01 t (snd hd / 2) ltac:(lra) ltac:(lra)) as Hf. set (f := (t - 1) / (snd hd / 2 - 1)) in *. clearbody f. nra.
    - destruct (Rlt_dec (T - 1) t); [lra|].
      pose proof (@lv_range t cs (tv_sorted HI) (snd hd / 2) hd lt) as HH.
      assert (fst hd <= lv t (snd hd / 2) cs <= fst lt); [|lra].
      apply HH; [|apply (cs_last Hne)]. unfold headc. destruct cs; [congruence|reflexivity].
  Qed.

  Lemma rv_mono t u : 0 <= t -> t <= u -> rv t <= rv u.
  Proof.
    intros H0 Htu. pose proof (tv_ne HI) as Hne. destruct (last_weight HI Hne) as (L1 & L2 & L3 & L4 & L5).
    pose proof (lo_hi HI). pose proof (tv_rng HI) as Hr. rewrite Forall_forall in Hr. pose proof (Hr _ L3). pose proof (Hr _ L4).
    pose proof (@rv_range t H0) as Rt. pose proof (@rv_range u ltac:(lra)) as Ru.
    assert (forall x, fst hd <= lv x (snd hd / 2) cs <= fst lt) as HV.
    { intros x. apply lv_range; [apply (tv_sorted HI)| |apply (cs_last Hne)]. unfold headc. destruct cs; [congruence|reflexivity]. }
    pose proof (HV t). pose proof (HV u).
    unfold rv in *. destruct (Rlt_dec t 1); [lra|]. destruct (Rlt_dec u 1); [lra|].
    destruct (Rlt_dec t (snd hd / 2)); destruct (Rlt_dec u (snd hd / 2)); try lra.
    - apply Rplus_le_compat_l. apply Rmult_le_compat_r; [lra|]. apply Rmult_le_compat_r; [|lra]. left. apply Rinv_0_lt_compat. lra.
    - pose proof (@frac_01 t (snd hd / 2) ltac:(lra) ltac:(lra)) as Hf. set (f := (t - 1) / (snd hd / 2 - 1)) in *. clearbody f.
      destruct (Rlt_dec (T - 1) u); [nra|]. nra.
    - destruct (Rlt_dec (T - 1) t); destruct (Rlt_dec (T - 1) u); try lra.
      apply lv_mono; auto; apply HI.
  Qed.

  (** the defective branch: the upper half of the last centroid *)
  Theorem est_v_last_branch q : 0 <= q <= 1 -> ~ clear_of_last (T * q) ->
    td_est_v s (XFin q) = Ret (if Req_EM_T (snd lt) 2 then XNaN else XFin (hi - (T - T * q - 1) / (snd lt / 2 - 1))) /\
    0 <= (T - T * q - 1) /\ (snd lt = 2 \/ 0 <= (T - T * q - 1) / (snd lt / 2 - 1) <= 1).
  Proof.
    intros Hq Hc. pose proof (tv_heavy HI) as Hh. pose proof (tv_ne HI) as Hne.
    destruct (last_weight HI Hne) as (L1 & L2 & L3 & L4 & L5).
    assert (2 <= snd lt) as Hl2.
    { destruct L1 as (z & Hz & Ez). assert (z <> 1)%Z. { intros ->. apply Hc. left. exact Ez. } rewrite Ez. apply IZR_le. lia. }
    apply posint_ge in L1 as L1', L2 as L2'.
    assert (T - snd lt / 2 <= T * q <= T - 1) as Ht.
    { split; apply Rnot_lt_le; intros HH; apply Hc; right; [left|right]; lra. }
    assert (snd lt <= T /\ (snd hd <= 2 * (T - snd lt / 2))) as [Hlt Hhd].
    { destruct L5 as [L5|L5]; [lra|]. destruct cs as [|c [|d l]]; [congruence| |discriminate]. unfold lastc, headc, Wt in *; cbn in *. lra. }
    unfold td_est_v. rewrite (total_emb HI), xmul_fin, (tv_min HI), (tv_max HI), (tv_cs HI), xf1, xf2.
    set (t := T * q) in *. clearbody t.
    rewrite (proj2 (xlt_f t 1)) by lra.
    assert (head (map emb cs) = Some (emb hd)) as -> by (unfold headc; destruct cs; [congruence|reflexivity]).
    cbn [unwrap bind emb mean weight]. rewrite xdiv_fin by lra.
    rewrite (proj2 (xlt_f t (snd hd / 2))), andb_false_r by lra. rewrite !xsub_fin.
    rewrite (proj2 (xgt_f t (T - 1))) by lra.
    assert (last_error (map emb cs) = Some (emb lt)) as ->.
    { destruct (last_error_split _ (cs_last Hne)) as (l' & El). rewrite El at 1. rewrite map_app. cbn [map]. apply last_error_app. }
    cbn [unwrap bind emb mean weight]. rewrite !(@xdiv_fin (snd lt) 2) by lra.
    rewrite (proj2 (xgt_b (snd lt) 1)) by lra.
    rewrite (proj2 (xle_b (T - t) (snd lt / 2))) by lra. cbn [andb]. rewrite !xsub_fin.
    destruct (Req_EM_T (snd lt) 2) as [E|E].
    - split; [|split; [lra|auto]]. replace (T - t - 1) with 0 by lra. replace (snd lt / 2 - 1) with 0 by lra.
      f_equal. cbn. unfold rsign. now rewrite Rcompare_Eq by lra.
    - rewrite xdiv_fin, xsub_fin by lra. split; [reflexivity|]. split; [lra|]. right. apply div_between; lra.
  Qed.
End Query.
