(** RCSketch: exponential moments of the rank error over the coin flips. *)
From Coq Require Import List Arith ZArith NArith Lia Bool Permutation Sorted Reals Lra.
From Verif Require Import Base Floats Digest Spec FloatFacts History TDigest RCSketch RCProofs RCHist RCRank RCExpect.
Set Implicit Arguments.
Local Open Scope R_scope.

(* ------------------------------------------------------------------ *)
(** * cosh x <= exp (x^2/2) *)

Lemma sinh_nonneg x : 0 <= x -> 0 <= sinh x.
Proof.
  intros H. unfold sinh. destruct (Req_dec x 0) as [->|Hn]; [rewrite Ropp_0; lra|].
  pose proof (exp_increasing (- x) x ltac:(lra)). lra.
Qed.
Lemma sinh_le x : 0 <= x -> sinh x <= x * cosh x.
Proof.
  intros H. destruct (Req_dec x 0) as [->|Hn]; [unfold sinh; rewrite Ropp_0; lra|].
  destruct (MVT_cor2 (fun y => sinh y - y * cosh y) (fun y => cosh y - (1 * cosh y + y * sinh y)) 0 x) as (c & E & Hc); [lra| |].
  - intros c _. apply derivable_pt_lim_minus; [apply derivable_pt_lim_sinh|].
    apply (derivable_pt_lim_mult id cosh); [apply derivable_pt_lim_id|apply derivable_pt_lim_cosh].
  - assert (sinh 0 = 0) as E0 by (unfold sinh; rewrite Ropp_0; lra). rewrite E0 in E.
    pose proof (@sinh_nonneg c ltac:(lra)) as Hs.
    assert (0 <= c * sinh c * x) by (apply Rmult_le_pos; [apply Rmult_le_pos; lra|lra]).
    replace ((cosh c - (1 * cosh c + c * sinh c)) * (x - 0)) with (- (c * sinh c * x)) in E by ring. lra.
Qed.
Lemma cosh_le_pos x : 0 <= x -> cosh x <= exp (x ^ 2 / 2).
Proof.
  intros H. destruct (Req_dec x 0) as [->|Hn]; [unfold cosh; rewrite Ropp_0, exp_0; replace (0 ^ 2 / 2) with 0 by field; rewrite exp_0; lra|].
  destruct (MVT_cor2 (fun y => exp (- (y ^ 2 / 2)) * cosh y) (fun y => (exp (- (y ^ 2 / 2)) * (- y)) * cosh y + exp (- (y ^ 2 / 2)) * sinh y) 0 x) as (c & E & Hc); [lra| |].
  - intros c _. apply (derivable_pt_lim_mult (fun y => exp (- (y ^ 2 / 2))) cosh); [|apply derivable_pt_lim_cosh].
    apply (derivable_pt_lim_comp (fun y => - (y ^ 2 / 2)) exp); [|apply derivable_pt_lim_exp].
    replace (- c) with (- (INR 2 * c ^ 1 * / 2)) by (cbn; field).
    apply (derivable_pt_lim_opp (fun y => y ^ 2 / 2)). unfold Rdiv.
    pose proof (@derivable_pt_lim_mult (fun y => y ^ 2) (fun _ => / 2) c (INR 2 * c ^ 1) 0 (derivable_pt_lim_pow c 2) (derivable_pt_lim_const (/ 2) c)) as HH.
    replace (INR 2 * c ^ 1 * / 2) with (INR 2 * c ^ 1 * / 2 + c ^ 2 * 0) by ring. exact HH.
  - assert (exp (- (0 ^ 2 / 2)) * cosh 0 = 1) as E0.
    { replace (- (0 ^ 2 / 2)) with 0 by field. unfold cosh. rewrite Ropp_0, exp_0. lra. }
    cbv beta in E. rewrite E0 in E. pose proof (@sinh_le c ltac:(lra)) as Hs.
    pose proof (exp_pos (- (c ^ 2 / 2))) as Hp. set (p := exp (- (c ^ 2 / 2))) in *.
    assert (p * (sinh c - c * cosh c) * x <= 0).
    { assert (0 <= p * (c * cosh c - sinh c) * x) by (apply Rmult_le_pos; [apply Rmult_le_pos; lra|lra]). lra. }
    replace ((p * - c * cosh c + p * sinh c) * (x - 0)) with (p * (sinh c - c * cosh c) * x) in E by ring.
    assert (exp (- (x ^ 2 / 2)) * cosh x <= 1) as L by lra. rewrite exp_Ropp in L.
    pose proof (exp_pos (x ^ 2 / 2)) as Hq. apply Rmult_le_reg_l with (/ exp (x ^ 2 / 2)); [apply Rinv_0_lt_compat, Hq|]. rewrite Rinv_l; lra.
Qed.
Lemma cosh_le x : (exp x + exp (- x)) / 2 <= exp (x ^ 2 / 2).
Proof.
  destruct (Rle_dec 0 x) as [H|H]; [exact (cosh_le_pos H)|].
  pose proof (@cosh_le_pos (- x) ltac:(lra)) as L. unfold cosh in L. rewrite Ropp_involutive in L.
  replace ((- x) ^ 2 / 2) with (x ^ 2 / 2) in L by field. lra.
Qed.
(** one coin: y or y + 2 around y + 1 *)
Lemma coin_exp l y : (exp (l * (y + 2)) + exp (l * y)) / 2 <= exp (l * (y + 1) + l ^ 2 / 2).
Proof.
  replace (l * (y + 2)) with (l * (y + 1) + l) by ring. replace (l * y) with (l * (y + 1) + - l) by ring.
  rewrite !exp_plus. pose proof (cosh_le l). pose proof (exp_pos (l * (y + 1))).
  replace ((exp (l * (y + 1)) * exp l + exp (l * (y + 1)) * exp (- l)) / 2) with (exp (l * (y + 1)) * ((exp l + exp (- l)) / 2)) by field.
  apply Rmult_le_compat_l; lra.
Qed.

Lemma coin_step l n0 (x0 x1 : nat) K e0 e1 : 0 <= K -> (x1 <= x0 <= x1 + 1)%nat ->
  e0 <= exp (l * (n0 + 2 * INR x0)) * K -> e1 <= exp (l * (n0 + 2 * INR x1)) * K ->
  (e0 + e1) / 2 <= exp (l * (n0 + (INR x0 + INR x1)) + l ^ 2 / 2) * K.
Proof.
  intros HK Hx H0 H1.
  apply Rle_trans with ((exp (l * (n0 + 2 * INR x0)) + exp (l * (n0 + 2 * INR x1))) / 2 * K); [lra|].
  apply Rmult_le_compat_r; [exact HK|].
  assert (INR x0 = INR x1 \/ INR x0 = INR x1 + 1) as [Ex|Ex].
  { assert (x0 = x1 \/ x0 = S x1) as [-> | ->] by lia; [left; reflexivity|right; apply S_INR]. }
  - rewrite Ex. replace (l * (n0 + (INR x1 + INR x1)) + l ^ 2 / 2) with (l * (n0 + 2 * INR x1) + l ^ 2 / 2) by field.
    rewrite exp_plus. pose proof (exp_pos (l * (n0 + 2 * INR x1))). assert (1 <= exp (l ^ 2 / 2)).
    { rewrite <- exp_0. destruct (Req_dec (l ^ 2 / 2) 0) as [->|Hne]; [lra|]. apply Rlt_le, exp_increasing. pose proof (pow2_ge_0 l). lra. }
    replace ((exp (l * (n0 + 2 * INR x1)) + exp (l * (n0 + 2 * INR x1))) / 2) with (exp (l * (n0 + 2 * INR x1)) * 1) by field.
    apply Rmult_le_compat_l; lra.
  - rewrite Ex. pose proof (coin_exp l (n0 + 2 * INR x1)) as H.
    replace (l * (n0 + (INR x1 + 1 + INR x1)) + l ^ 2 / 2) with (l * (n0 + 2 * INR x1 + 1) + l ^ 2 / 2) by field.
    replace (n0 + 2 * (INR x1 + 1)) with (n0 + 2 * INR x1 + 2) by ring. exact H.
Qed.

(* ------------------------------------------------------------------ *)
(** * From exponential moments to tails *)

Lemma exp_mono x y : x <= y -> exp x <= exp y.
Proof. intros [H| ->]; [apply Rlt_le, exp_increasing, H|lra]. Qed.

(** dropping the bounded compensation [c] *)
Lemma drop_exp {A} (m : M A) (x c : A -> R) V B : always (fun a => c a <= V) m -> expect (fun a => exp (x a - c a)) m <= B ->
  expect (fun a => exp (x a)) m <= B * exp V.
Proof.
  intros HA HB. apply Rle_trans with (exp V * expect (fun a => exp (x a - c a)) m).
  - rewrite <- expect_scal. eapply expect_le_always; [exact HA|]. cbn beta. intros a Ha. rewrite <- exp_plus. apply exp_mono. lra.
  - rewrite Rmult_comm. apply Rmult_le_compat_r; [apply Rlt_le, exp_pos|exact HB].
Qed.

(** Chernoff *)
Lemma chernoff {A} (m : M A) (g : A -> R) V t : 0 < V -> 0 < t -> always (fun _ => True) m ->
  (forall l, expect (fun a => exp (l * g a)) m <= exp (l ^ 2 / 2 * V)) ->
  forall p, (forall a, p a = true -> t <= Rabs (g a)) -> prob p m <= 2 * exp (- (t ^ 2 / (2 * V))).
Proof.
  intros HV Ht HA HE p Hp. set (l := t / V). assert (0 < l) as Hl by (apply Rdiv_lt_0_compat; assumption).
  apply Rle_trans with (expect (fun a => exp (- (l * t)) * exp (l * g a) + exp (- (l * t)) * exp (- l * g a)) m).
  - unfold prob. eapply expect_le_always; [exact HA|]. cbn beta. intros a _.
    pose proof (exp_pos (- (l * t) + l * g a)) as P1. pose proof (exp_pos (- (l * t) + - l * g a)) as P2. rewrite <- !exp_plus.
    destruct (p a) eqn:E; [|lra]. specialize (Hp a E). unfold Rabs in Hp. destruct (Rcase_abs (g a)).
    + pose proof (@exp_mono 0 (- (l * t) + - l * g a)) as H. rewrite exp_0 in H. assert (0 <= - (l * t) + - l * g a) by nra. specialize (H ltac:(assumption)). lra.
    + pose proof (@exp_mono 0 (- (l * t) + l * g a)) as H. rewrite exp_0 in H. assert (0 <= - (l * t) + l * g a) by nra. specialize (H ltac:(assumption)). lra.
  - rewrite expect_plus, !expect_scal. pose proof (HE l) as E1. pose proof (HE (- l)) as E2. replace ((- l) ^ 2) with (l ^ 2) in E2 by ring.
    pose proof (exp_pos (- (l * t))) as P.
    apply Rle_trans with (2 * (exp (- (l * t)) * exp (l ^ 2 / 2 * V))); [nra|].
    rewrite <- exp_plus. right. f_equal. f_equal. unfold l. field. lra.
Qed.

(* ------------------------------------------------------------------ *)
(** * Moments *)

Section RCX.
  Context {F : Type} {FO : FloatOps F} {FL : FloatLaws F}.
  Notation level := (@level F).
  Variables (k bs : nat) (v : F).
  Hypothesis Hk : (1 <= k)%nat.
  Hypothesis Hbs : (2 <= bs)%nat.

  (** the exponential of l (rank + a), less what the compactions may contribute *)
  Definition mgf (l : R) (lv : list level) (a : R) : R := exp (l * (INR (lv_rank lv v) + a) - l ^ 2 / 2 * INR (lv_compactions2 lv)).

  Lemma mgf_cons l b c up a : mgf l ((b, c) :: up) a = exp (l * (INR (n_le b v) + a) - l ^ 2 / 2 * INR (N.to_nat c)) * mgf (2 * l) up 0.
  Proof.
    unfold mgf. rewrite <- exp_plus. f_equal. cbn [lv_rank lv_compactions2]. rewrite !plus_INR, !mult_INR.
    replace (INR 2) with 2 by reflexivity. replace (INR 4) with 4 by (cbn; ring). field.
  Qed.
  Lemma mgf_shift l lv a : mgf l lv a = exp (l * a) * mgf l lv 0.
  Proof. unfold mgf. rewrite <- exp_plus. f_equal. ring. Qed.

  Lemma fill_exp fuel :
    (forall lv items l, always (fun _ => True) (fill k bs false Default fuel lv items) ->
       expect (fun lv' => mgf l lv' 0) (fill k bs false Default fuel lv items) <= exp (l * INR (n_le items v)) * mgf l lv 0) /\
    (forall b c up l, always (fun _ => True) (drain k bs false Default fuel b c up) ->
       expect (fun lv' => mgf l lv' 0) (drain k bs false Default fuel b c up) <= mgf l ((b, c) :: up) 0).
  Proof.
    induction fuel as [|fuel [IHf IHd]]; [split; intros; contradiction|]. split.
    - intros lv items l. rewrite fill_S. destruct (ensure lv) as [[b c] up] eqn:E.
      assert (mgf l lv 0 = mgf l ((b, c) :: up) 0) as Elv.
      { destruct lv as [|[b0 c0] up0]; cbn [ensure] in E; injection E; intros; subst; [|reflexivity].
        unfold mgf. cbn [lv_rank lv_compactions2]. reflexivity. }
      destruct items as [|x items].
      { intros _. cbn [expect]. rewrite Elv. replace (INR (n_le [] v)) with 0 by reflexivity. rewrite Rmult_0_r, exp_0. lra. }
      destruct (bs <? length b)%nat; [intros []|]. intros HA.
      set (r := skipn (bs - length b) (x :: items)) in *.
      eapply Rle_trans.
      { eapply expect_bind_le with (P := fun _ => True) (h := fun lv' => exp (l * INR (n_le r v)) * mgf l lv' 0); [exact HA|apply whenever_true|].
        intros lv' _ H. apply IHf; exact H. }
      rewrite expect_scal. eapply Rle_trans; [apply Rmult_le_compat_l; [apply Rlt_le, exp_pos|apply IHd; eapply always_bind_true; exact HA]|].
      rewrite Elv, !mgf_cons, n_le_app, plus_INR. unfold r at 1.
      rewrite <- (firstn_skipn (bs - length b) (x :: items)) at 3. rewrite n_le_app, plus_INR. fold r.
      right. rewrite <- !Rmult_assoc. rewrite <- !exp_plus. f_equal. f_equal. ring.
    - intros b c up l. rewrite drain_S. destruct (length b <? bs)%nat.
      { intros _. cbn [expect]. lra. }
      intros HA. pose proof (always_bind_true _ _ HA) as Hix.
      apply compact_index_ret in Hix as (i & c' & Ei & Hi). rewrite Ei in *. cbn [bind] in *.
      destruct Hi as (_ & _ & ->).
      pose proof (always_bind_true _ _ HA) as Hco.
      apply compact_coin in Hco as (s & Hp & Hs & His & Es). 2: exact (fun _ => 0).
      rewrite Es in *. cbn [bind expect always] in *.
      assert (forall ch, expect (fun lv' => mgf l lv' 0)
                (do up' <- fill k bs false Default fuel up (every_other ch (skipn i s));
                 drain k bs false Default fuel (firstn i s) (c + 1)%N up')
              <= exp (l * (INR (n_le (firstn i s) v) + 2 * INR (n_le (every_other ch (skipn i s)) v))) *
                 (exp (- (l ^ 2 / 2 * (INR (N.to_nat c) + 1))) * mgf (2 * l) up 0)) as Hch.
      { intros ch. specialize (HA ch).
        eapply Rle_trans.
        { eapply expect_bind_le with (P := fun _ => True)
            (h := fun up' => exp (l * (INR (n_le (firstn i s) v) + 0) - l ^ 2 / 2 * INR (N.to_nat (c + 1))) * mgf (2 * l) up' 0);
            [exact HA|apply whenever_true|].
          intros up' _ H. eapply Rle_trans; [apply IHd; exact H|]. rewrite mgf_cons. lra. }
        rewrite expect_scal. eapply Rle_trans; [apply Rmult_le_compat_l; [apply Rlt_le, exp_pos|apply IHf; eapply always_bind_true; exact HA]|].
        right. rewrite <- !Rmult_assoc, <- !exp_plus. f_equal. f_equal.
        rewrite N2Nat.inj_add, plus_INR. change (INR (N.to_nat 1)) with 1. field. }
      pose proof (Hch false) as H0. pose proof (Hch true) as H1. rewrite mgf_cons, (n_le_perm v Hp).
      rewrite <- (firstn_skipn i s) in Hs. apply SS_app in Hs as (_ & Hs & _).
      destruct (every_other_rank v Hs) as [Q1 Q2].
      assert (n_le s v = n_le (firstn i s) v + n_le (skipn i s) v)%nat as Esp by (rewrite <- n_le_app, firstn_skipn; reflexivity).
      rewrite Esp, <- Q1, !plus_INR.
      set (x0 := n_le (every_other false (skipn i s)) v) in *. set (x1 := n_le (every_other true (skipn i s)) v) in *.
      set (n0 := INR (n_le (firstn i s) v)) in *.
      set (K := exp (- (l ^ 2 / 2 * (INR (N.to_nat c) + 1))) * mgf (2 * l) up 0) in *.
      assert (0 < mgf (2 * l) up 0) as Hm by apply exp_pos.
      assert (0 < K) as HK by (apply Rmult_lt_0_compat; [apply exp_pos|exact Hm]).
      match goal with |- _ <= exp ?e * _ => replace (exp e * mgf (2 * l) up 0) with (exp (l * (n0 + (INR x0 + INR x1)) + l ^ 2 / 2) * K) end.
      2: { unfold K. rewrite <- Rmult_assoc, <- exp_plus. f_equal. f_equal. field. }
      apply coin_step; [lra|lia|exact H0|exact H1].
  Qed.

  Lemma rexec_exp ops (s : rc F) a l : Forall (fun o => rfast o = false /\ rmeth o = Default) ops ->
    rc_k s = k -> rc_size s = bs -> small bs (rc_levels s) -> always (fun _ => True) (rexec s ops) ->
    expect (fun s' => mgf l (rc_levels s') a) (rexec s ops) <= mgf l (rc_levels s) (INR (n_le (ritems_of ops) v) + a).
  Proof.
    intros Hm Ek Eb Hsm HA.
    refine (@rexec_martingale F FO FL k bs v Hk Hbs (fun lv a => mgf l lv a) (fun f m => f = false /\ m = Default) _ ops s a Hm Ek Eb Hsm HA).
    intros fast m fuel lv items a' [-> ->] HF.
    assert (forall m0, expect (fun lv' => mgf l lv' a') m0 = exp (l * a') * expect (fun lv' => mgf l lv' 0) m0) as E.
    { intros m0. rewrite <- expect_scal. induction m0 as [x| | |f IH]; cbn [expect]; auto; [apply mgf_shift|now rewrite !IH]. }
    rewrite E. eapply Rle_trans; [apply Rmult_le_compat_l; [apply Rlt_le, exp_pos|apply (proj1 (fill_exp fuel)); exact HF]|].
    right. rewrite (mgf_shift l lv (INR (n_le items v) + a')), <- Rmult_assoc, <- exp_plus. f_equal. f_equal. ring.
  Qed.
End RCX.
