(** SymDigest over unbiased digests: its mean square error, and that it uses the more accurate side with high probability. *)
From Coq Require Import List Arith ZArith Lia Bool Reals Lra.
From Verif Require Import Base Floats XReal Digest Spec FloatFacts History LinearProofs WrapProofs MultiSymProofs.
From Verif Require Import TDigestExact TDigestHist TDigestAcc TDigestAcc2 TDigestDrift Accurate AccuratePar Average.
Set Implicit Arguments.
Set Universe Polymorphism.
Unset Universe Minimization ToSet.
Local Open Scope R_scope.

(** the answer of a SymDigest from the low estimate [x] and the high estimate [y] *)
Definition pick (x y : R) : R := if Rlt_dec (x + y) 1 then x else if Rlt_dec 1 (x + y) then y else (x + y) / 2.
(** the distance of [x] to the interval [lo, hi] *)
Definition off (lo hi x : R) : R := Rmax 0 (Rmax (lo - x) (x - hi)).

(* ------------------------------------------------------------------ *)
(** * Two independent estimates *)
Section Two.
  Context {A B : Type}.
  Variables (m : M A) (n : M B) (X : A -> R) (Y : B -> R) (q0 q1 aL aH : R).
  Hypotheses (Hm : always (fun _ => True) m) (Hn : always (fun _ => True) n).
  Hypotheses (EX : expect X m = q1) (EY : expect Y n = q0).
  Hypotheses (VX : expect (fun a => (X a - q1) ^ 2) m <= aL) (VY : expect (fun b => (Y b - q0) ^ 2) n <= aH).
  Definition both (f : R -> R -> R) : R := expect (fun a => expect (fun b => f (X a) (Y b)) n) m.

  Lemma both_le f g : (forall x y, f x y <= g x y) -> both f <= both g.
  Proof using Hm Hn. intros H. eapply expect_le_always; [exact Hm|]. intros a _. eapply expect_le_always; [exact Hn|]. intros b _. apply H. Qed.
  Lemma both_plus f g : both (fun x y => f x y + g x y) = both f + both g.
  Proof using Type. unfold both. rewrite <- expect_plus. apply expect_ext. intros a. apply expect_plus. Qed.
  Lemma both_scal c f : both (fun x y => c * f x y) = c * both f.
  Proof using Type. unfold both. rewrite <- expect_scal. apply expect_ext. intros a. apply expect_scal. Qed.
  Lemma both_X f : both (fun x _ => f x) = expect (fun a => f (X a)) m.
  Proof using Hn. unfold both. apply expect_ext. intros a. now apply expect_const. Qed.
  Lemma both_Y f : both (fun _ y => f y) = expect (fun b => f (Y b)) n.
  Proof using Hm. unfold both. now apply expect_const. Qed.
  Lemma devX : expect (fun a => X a - q1) m = 0.
  Proof using EX Hm. transitivity (expect X m + expect (fun _ => - q1) m); [rewrite <- expect_plus; apply expect_ext; intros; lra|]. rewrite expect_const by exact Hm. lra. Qed.
  Lemma both_X2 : both (fun x _ => (x - q1) ^ 2) <= aL.
  Proof using Hn VX. rewrite (both_X (fun x => (x - q1) ^ 2)). exact VX. Qed.
  Lemma both_Y2 : both (fun _ y => (y - q0) ^ 2) <= aH.
  Proof using Hm VY. rewrite (both_Y (fun y => (y - q0) ^ 2)). exact VY. Qed.
  Lemma cross : both (fun x y => (x - q1) * (y - q0)) = 0.
  Proof using EX Hm.
    unfold both. transitivity (expect (fun a => expect (fun b => Y b - q0) n * (X a - q1)) m).
    - apply expect_ext. intros a. rewrite expect_scal. ring.
    - rewrite expect_scal, devX. ring.
  Qed.
  Lemma both_sum2 : both (fun x y => (x + y - q0 - q1) ^ 2) <= aL + aH.
  Proof using EX Hm Hn VX VY.
    replace (both (fun x y => (x + y - q0 - q1) ^ 2)) with (both (fun x y => ((x - q1) ^ 2 + 2 * ((x - q1) * (y - q0))) + (y - q0) ^ 2)).
    - rewrite !both_plus, both_scal, cross. pose proof both_X2. pose proof both_Y2. lra.
    - unfold both. apply expect_ext. intros a. apply expect_ext. intros b. ring.
  Qed.

  Lemma sq_nn x : 0 <= x ^ 2.
  Proof. apply pow2_ge_0. Qed.
  Lemma off_nn lo hi x : 0 <= off lo hi x.
  Proof. apply Rmax_l. Qed.
  Lemma off_abs lo hi x c : lo <= c <= hi -> off lo hi x <= Rabs (x - c).
  Proof.
    intros H. unfold off. apply Rmax_lub; [apply Rabs_pos|]. apply Rmax_lub.
    - rewrite <- Rabs_Ropp. eapply Rle_trans; [|apply Rle_abs]. lra.
    - eapply Rle_trans; [|apply Rle_abs]. lra.
  Qed.
  Lemma off_sq lo hi x c : lo <= c <= hi -> off lo hi x ^ 2 <= (x - c) ^ 2.
  Proof. intros H. rewrite <- (pow2_abs (x - c)). apply pow_incr. split; [apply off_nn|now apply off_abs]. Qed.

  Lemma pick_mse : q0 <= q1 -> both (fun x y => off q0 q1 (pick x y) ^ 2) <= aL + aH.
  Proof using Hm Hn VX VY.
    intros Hq. apply Rle_trans with (both (fun x y => (x - q1) ^ 2 + (y - q0) ^ 2)).
    - apply both_le. intros x y. unfold pick. pose proof (sq_nn (x - q1)). pose proof (sq_nn (y - q0)).
      destruct (Rlt_dec (x + y) 1); [pose proof (@off_sq q0 q1 x q1 ltac:(lra)); lra|].
      destruct (Rlt_dec 1 (x + y)); [pose proof (@off_sq q0 q1 y q0 ltac:(lra)); lra|].
      pose proof (@off_sq q0 q1 ((x + y) / 2) ((q0 + q1) / 2) ltac:(lra)). pose proof (sq_nn ((x - q1) - (y - q0))). nra.
    - rewrite both_plus. pose proof both_X2. pose proof both_Y2. lra.
  Qed.

  Definition far (c t x : R) : R := if Rle_dec t (Rabs (x - c)) then 1 else 0.
  Lemma far_le c t x : 0 < t -> far c t x <= (x - c) ^ 2 / t ^ 2.
  Proof.
    intros Ht. assert (0 < t ^ 2) as Ht2 by now apply pow_lt. unfold far. destruct (Rle_dec t (Rabs (x - c))) as [H|H].
    - apply Rmult_le_reg_r with (t ^ 2); [exact Ht2|]. unfold Rdiv. rewrite Rmult_assoc, Rinv_l, Rmult_1_l, Rmult_1_r by lra.
      rewrite <- (pow2_abs (x - c)). apply pow_incr. lra.
    - apply Rmult_le_pos; [apply sq_nn|]. left. now apply Rinv_0_lt_compat.
  Qed.
  Lemma far_1 c t x : far c t x <= 1.
  Proof. unfold far. destruct (Rle_dec _ _); lra. Qed.
  Lemma over s d : 0 < d -> d <= Rabs s -> 1 <= s ^ 2 / d ^ 2.
  Proof.
    intros Hd Hs. assert (0 < d ^ 2) by now apply pow_lt. apply Rmult_le_reg_r with (d ^ 2); [assumption|]. unfold Rdiv.
    rewrite Rmult_assoc, Rinv_l, Rmult_1_l, Rmult_1_r by lra. rewrite <- (pow2_abs s). apply pow_incr. lra.
  Qed.
  Lemma div_nn s d : 0 < d -> 0 <= s ^ 2 / d ^ 2.
  Proof. intros Hd. apply Rmult_le_pos; [apply sq_nn|]. left. now apply Rinv_0_lt_compat, pow_lt. Qed.

  Lemma pick_low t : q0 + q1 < 1 -> 0 < t -> both (fun x y => far q1 t (pick x y)) <= aL / t ^ 2 + (aL + aH) / (1 - q0 - q1) ^ 2.
  Proof using EX Hm Hn VX VY.
    intros Hq Ht. assert (0 < t ^ 2) as Ht2 by now apply pow_lt. assert (0 < 1 - q0 - q1) as Hd by lra.
    apply Rle_trans with (both (fun x y => / t ^ 2 * (x - q1) ^ 2 + / (1 - q0 - q1) ^ 2 * (x + y - q0 - q1) ^ 2)).
    - apply both_le. intros x y. pose proof (@div_nn (x + y - q0 - q1) _ Hd) as N1. pose proof (@div_nn (x - q1) _ Ht) as N2.
      unfold Rdiv in N1, N2. unfold pick. destruct (Rlt_dec (x + y) 1) as [Hlt|Hge].
      + pose proof (@far_le q1 t x Ht) as F. unfold Rdiv in F. lra.
      + assert (1 - q0 - q1 <= Rabs (x + y - q0 - q1)) as Ha by (eapply Rle_trans; [|apply Rle_abs]; lra).
        pose proof (@over (x + y - q0 - q1) _ Hd Ha) as O. unfold Rdiv in O. pose proof (far_1 q1 t (if Rlt_dec 1 (x + y) then y else (x + y) * / 2)). unfold Rdiv. lra.
    - rewrite both_plus, !both_scal. unfold Rdiv. rewrite (Rmult_comm aL), (Rmult_comm (aL + aH)). apply Rplus_le_compat; apply Rmult_le_compat_l.
      + left. now apply Rinv_0_lt_compat.
      + exact both_X2.
      + left. now apply Rinv_0_lt_compat, pow_lt.
      + exact both_sum2.
  Qed.
  Lemma pick_high t : 1 < q0 + q1 -> 0 < t -> both (fun x y => far q0 t (pick x y)) <= aH / t ^ 2 + (aL + aH) / (q0 + q1 - 1) ^ 2.
  Proof using EX Hm Hn VX VY.
    intros Hq Ht. assert (0 < t ^ 2) as Ht2 by now apply pow_lt. assert (0 < q0 + q1 - 1) as Hd by lra.
    apply Rle_trans with (both (fun x y => / t ^ 2 * (y - q0) ^ 2 + / (q0 + q1 - 1) ^ 2 * (x + y - q0 - q1) ^ 2)).
    - apply both_le. intros x y. pose proof (@div_nn (x + y - q0 - q1) _ Hd) as N1. pose proof (@div_nn (y - q0) _ Ht) as N2.
      unfold Rdiv in N1, N2. unfold pick. destruct (Rlt_dec (x + y) 1) as [Hlt|Hge]; [|destruct (Rlt_dec 1 (x + y)) as [Hgt|Hle]].
      + assert (q0 + q1 - 1 <= Rabs (x + y - q0 - q1)) as Ha by (rewrite <- Rabs_Ropp; eapply Rle_trans; [|apply Rle_abs]; lra).
        pose proof (@over (x + y - q0 - q1) _ Hd Ha) as O. unfold Rdiv in O. pose proof (far_1 q0 t x). lra.
      + pose proof (@far_le q0 t y Ht) as F. unfold Rdiv in F. lra.
      + assert (q0 + q1 - 1 <= Rabs (x + y - q0 - q1)) as Ha by (rewrite <- Rabs_Ropp; eapply Rle_trans; [|apply Rle_abs]; lra).
        pose proof (@over (x + y - q0 - q1) _ Hd Ha) as O. unfold Rdiv in O. pose proof (far_1 q0 t ((x + y) / 2)). lra.
    - rewrite both_plus, !both_scal. unfold Rdiv. rewrite (Rmult_comm aH), (Rmult_comm (aL + aH)). apply Rplus_le_compat; apply Rmult_le_compat_l.
      + left. now apply Rinv_0_lt_compat.
      + exact both_Y2.
      + left. now apply Rinv_0_lt_compat, pow_lt.
      + exact both_sum2.
  Qed.
End Two.

(* ------------------------------------------------------------------ *)
(** * The two halves run independently *)
Section Halves.
  Variable D : digest xr.
  Notation SD := (sym_digest D).

  (** every call of the history returns, and the quantile answers along the way are numbers *)
  Definition told (o : op xr) (a : list xr) : Prop := match o with Quant _ => Forall xfinite a | _ => True end.
  Fixpoint sound (d : dst D) (ops : list (op xr)) : Prop :=
    match ops with
    | [] => True
    | o :: ops' => always (fun r => told o (snd r) /\ sound (fst r) ops') (step D d o)
    end.
  Lemma sound_snoc o ops : forall d, sound d ops -> always (fun r => always (fun r' => told o (snd r')) (step D (fst r) o)) (exec D d ops) -> sound d (ops ++ [o]).
  Proof.
    induction ops as [|o' ops IH]; intros d H1 H2.
    - cbn [app sound exec always fst] in *. eapply always_mono; [exact H2|]. intros r Hr. split; [exact Hr|exact I].
    - cbn [app sound exec] in *. rewrite always_bind_iff in H2. eapply always_mono; [apply always_and; [exact H1|exact H2]|].
      intros [s a] [[A B] C]. cbn [fst snd] in *. split; [exact A|]. apply IH; [exact B|]. rewrite always_bind_iff in C.
      eapply always_mono; [exact C|]. intros [s'' b] Hr. exact Hr.
  Qed.

  Lemma finite_ask d ops v : always (fun r => exists al x, snd r = al ++ [XFin x]) (exec D d (ops ++ [Quant v])) ->
    always (fun r => always (fun r' => xfinite (snd r')) (d_est_q D (fst r) v)) (exec D d ops).
  Proof.
    rewrite exec_app', always_bind_iff. intros H. eapply always_mono; [exact H|]. intros [s al]. cbn [fst exec step]. rewrite !bind_assoc, !always_bind_iff.
    intros H1. eapply always_mono; [exact H1|]. intros [s' x]. cbn [bind always snd fst]. rewrite app_nil_r. intros (al' & y & E).
    apply app_inj_tail in E as [_ ->]. exists y. reflexivity.
  Qed.

  Lemma unbiased_sound s0 lim a ops : unbiased D s0 lim a -> fine ops -> (Z.of_nat (length (items_of ops)) <= lim)%Z -> sound s0 ops.
  Proof.
    intros U. induction ops as [|o ops IH] using rev_ind; intros Hf Hl; [exact I|].
    pose proof (fine_app_l _ _ Hf) as Hf'.
    assert (Z.of_nat (length (items_of ops)) <= lim)%Z as Hl' by (rewrite items_of_app, app_length in Hl; lia).
    apply sound_snoc; [exact (IH Hf' Hl')|].
    pose proof (ub_runs U Hf Hl) as HR. rewrite exec_app', always_bind_iff in HR.
    assert (always (fun r => always (fun _ => True) (step D (fst r) o)) (exec D s0 ops)) as HS.
    { eapply always_mono; [exact HR|]. intros [s al] Hr. cbn [fst exec] in *. rewrite always_bind_iff in Hr. rewrite always_bind_iff in Hr.
      eapply always_mono; [exact Hr|]. auto. }
    destruct o as [x|b|v|q]; try exact HS.
    destruct (fine_items Hf') as (rs & Hi). pose proof (fine_last_query _ _ Hf eq_refl) as Hne.
    assert (xfinite v) as (v' & ->).
    { destruct Hf as [Hf _]. apply Forall_app in Hf as [_ Hf]. exact (Forall_inv Hf). }
    assert (rs <> []) as Hne' by (intros ->; apply Hne; exact Hi).
    assert (Z.of_nat (length rs) <= lim)%Z as Hl2 by (rewrite Hi, map_length in Hl'; exact Hl').
    eapply always_mono; [exact (finite_ask _ _ _ (ub_finite U v' Hf' Hi Hne' Hl2))|]. intros [s al] Hr. cbn [step told fst] in *.
    eapply always_bind; [exact Hr|]. intros [s' x] Hx. cbn [always snd] in *. constructor; [exact Hx|constructor].
  Qed.

  Lemma avg_cmp x y : exists c, cmp_unwrap (fdiv (fadd (XFin x) (fsub f1 (XFin y))) f2) fhalf = Ret c.
  Proof. rewrite combine_avg. unfold cmp_unwrap. cbn [fcmp xr_ops]. change (@fhalf xr _) with (XFin (1 / 2)). unfold xcmp. cbn [unwrap]. eexists. reflexivity. Qed.
  Lemma half_cmp x : exists c, cmp_unwrap (XFin x) fhalf = Ret c.
  Proof. unfold cmp_unwrap. cbn [fcmp xr_ops]. change (@fhalf xr _) with (XFin (1 / 2)). unfold xcmp. cbn [unwrap]. eexists. reflexivity. Qed.

  Lemma step_halves o l h (f : dst D -> dst D -> R) : fine_op o -> always (fun r => told o (snd r)) (step D l o) -> always (fun r => told (mirror o) (snd r)) (step D h (mirror o)) ->
    expect (fun r => f (low_digest (fst r)) (high_digest (fst r))) (step SD (Sym D l h) o) =
    expect (fun r1 => expect (fun r2 => f (fst r1) (fst r2)) (step D h (mirror o))) (step D l o).
  Proof.
    intros Ho H1 H2. destruct o as [x|b|v|q]; cbn [step mirror d_add d_add_buffer d_est_q d_est_v sym_digest told] in *.
    - unfold sym_add. cbn [low_digest high_digest]. rewrite bind_assoc, !expect_bind. apply expect_ext. intros l'. cbn [expect fst].
      rewrite bind_assoc, !expect_bind. reflexivity.
    - unfold sym_add_buffer. cbn [low_digest high_digest]. rewrite bind_assoc, !expect_bind. apply expect_ext. intros l'. cbn [expect fst].
      rewrite bind_assoc, !expect_bind. reflexivity.
    - rewrite always_bind_iff in H1, H2. unfold sym_est_q. cbn [low_digest high_digest]. rewrite bind_assoc, !expect_bind.
      eapply expect_ext_always; [exact H1|]. intros [l' x] Hx. cbn [always snd] in Hx. apply Forall_inv in Hx as (x' & ->). cbn [expect fst].
      rewrite bind_assoc, !expect_bind. eapply expect_ext_always; [exact H2|]. intros [h' y] Hy. cbn [always snd] in Hy. apply Forall_inv in Hy as (y' & ->).
      cbv zeta. destruct (avg_cmp x' y') as (c & Ec). rewrite Ec. reflexivity.
    - destruct Ho as (q' & -> & _). unfold sym_est_v. cbn [low_digest high_digest]. rewrite bind_assoc, !expect_bind.
      apply expect_ext. intros [l' x]. cbn [expect fst].
      rewrite bind_assoc, !expect_bind. apply expect_ext. intros [h' y].
      cbv zeta. destruct (half_cmp q') as (c & Ec). rewrite Ec. reflexivity.
  Qed.
  Lemma exec_halves ops : forall l h (f : dst D -> dst D -> R), Forall fine_op ops -> sound l ops -> sound h (map mirror ops) ->
    expect (fun r => f (low_digest (fst r)) (high_digest (fst r))) (exec SD (Sym D l h) ops) =
    expect (fun r1 => expect (fun r2 => f (fst r1) (fst r2)) (exec D h (map mirror ops))) (exec D l ops).
  Proof.
    induction ops as [|o ops IH]; intros l h f Ho H1 H2; [reflexivity|].
    inversion Ho as [|? ? Ho1 Ho2]; subst. cbn [sound map] in H1, H2.
    cbn [exec map]. rewrite !expect_bind.
    pose (G := fun l' h' => expect (fun r => f (low_digest (fst r)) (high_digest (fst r))) (exec SD (Sym D l' h') ops)).
    transitivity (expect (fun r => G (low_digest (fst r)) (high_digest (fst r))) (step SD (Sym D l h) o)).
    - apply expect_ext. intros [[l' h'] a]. rewrite expect_bind. cbn [fst low_digest high_digest]. unfold G. apply expect_ext.
      intros [s b]. reflexivity.
    - rewrite (@step_halves o l h G Ho1); [|eapply always_mono; [exact H1|cbv beta; intros r0 Hr0; apply Hr0]|eapply always_mono; [exact H2|cbv beta; intros r0 Hr0; apply Hr0]].
      eapply expect_ext_always; [exact H1|]. intros [l' a] [_ S1]. cbn [fst] in *.
      transitivity (expect (fun r2 => expect (fun r1 => expect (fun r2' => f (fst r1) (fst r2')) (exec D (fst r2) (map mirror ops))) (exec D l' ops)) (step D h (mirror o))).
      + eapply expect_ext_always; [exact H2|]. intros [h' a2] [_ S2]. cbn [fst] in *. unfold G. exact (IH l' h' f Ho2 S1 S2).
      + rewrite expect_swap, expect_bind. apply expect_ext. intros [l2 a2]. cbn [expect fst]. rewrite expect_bind. apply expect_ext. intros [h' a3]. cbn [fst]. rewrite expect_bind.
        apply expect_ext. intros [h2 a4]. reflexivity.
  Qed.

  Lemma pick_answer {S} (s : S) x y : (do c <- cmp_unwrap (fdiv (fadd (XFin x) (fsub f1 (XFin y))) f2) fhalf;
      Ret (s, match c with Lt => XFin x | Gt => fsub f1 (XFin y) | Eq => fdiv (fadd (XFin x) (fsub f1 (XFin y))) f2 end)) = Ret (s, XFin (pick x (1 - y))).
  Proof.
    rewrite combine_avg, xsub1. unfold pick, cmp_unwrap. cbn [fcmp xr_ops]. change (@fhalf xr _) with (XFin (1 / 2)). unfold xcmp.
    destruct (Raux.Rcompare_spec ((x + (1 - y)) / 2) (1 / 2)) as [H|H|H]; cbn [unwrap bind];
      destruct (Rlt_dec (x + (1 - y)) 1); destruct (Rlt_dec 1 (x + (1 - y))); try lra; reflexivity.
  Qed.

  Variables (l0 h0 : dst D).
  Lemma sym_expect ops v (g : R -> R) : Forall fine_op ops -> sound l0 ops -> sound h0 (map mirror ops) ->
    always (fun r => exists al x, snd r = al ++ [XFin x]) (exec D l0 (ops ++ [Quant (XFin v)])) ->
    always (fun r => exists al x, snd r = al ++ [XFin x]) (exec D h0 (map mirror ops ++ [Quant (XFin (- v))])) ->
    expect (fun r => g (last_answer r)) (exec SD (Sym D l0 h0) (ops ++ [Quant (XFin v)])) =
    both (exec D l0 (ops ++ [Quant (XFin v)])) (exec D h0 (map mirror ops ++ [Quant (XFin (- v))])) last_answer (fun r => 1 - last_answer r) (fun x y => g (pick x y)).
  Proof.
    intros Hq S1 S2 F1 F2. apply finite_ask in F1, F2. rewrite ask_expect. unfold both.
    rewrite (ask_expect D l0 ops (XFin v) (fun x => expect (fun b => g (pick x (1 - last_answer b))) (exec D h0 (map mirror ops ++ [Quant (XFin (- v))])))).
    pose (A := fun l h => expect (fun r1 => expect (fun r2 => g (pick (real (snd r1)) (1 - real (snd r2)))) (d_est_q D h (XFin (- v)))) (d_est_q D l (XFin v))).
    transitivity (expect (fun r1 => expect (fun r2 => A (fst r1) (fst r2)) (exec D h0 (map mirror ops))) (exec D l0 ops)).
    - pose (G := fun l h => expect (fun r' => g (real (snd r'))) (d_est_q SD (Sym D l h) (XFin v))).
      transitivity (expect (fun r => G (low_digest (fst r)) (high_digest (fst r))) (exec SD (Sym D l0 h0) ops)).
      + apply expect_ext. intros [[l h] a]. reflexivity.
      + rewrite (@exec_halves ops l0 h0 G Hq S1 S2). eapply expect_ext_always; [exact F1|]. intros [l al] Hl. eapply expect_ext_always; [exact F2|]. intros [h ah] Hh.
        cbn [fst] in *. unfold A, G. cbn [d_est_q sym_digest]. unfold sym_est_q. cbn [low_digest high_digest]. rewrite expect_bind.
        eapply expect_ext_always; [exact Hl|]. intros [l' x] (x' & E). cbn [snd] in E. subst x. rewrite expect_bind. change (fneg (XFin v)) with (XFin (- v)).
        eapply expect_ext_always; [exact Hh|]. intros [h' y] (y' & E). cbn [snd] in E. subst y. cbv zeta. rewrite pick_answer. reflexivity.
    - apply expect_ext. intros [l al]. cbn [fst]. unfold A. rewrite expect_swap. apply expect_ext. intros [l' x]. cbn [snd].
      rewrite (ask_expect D h0 (map mirror ops) (XFin (- v)) (fun y => g (pick (real x) (1 - y)))). reflexivity.
  Qed.

  Variables (lim : Z) (aL aH : list R -> R -> R).
  Hypotheses (UL : unbiased D l0 lim aL) (UH : unbiased D h0 lim aH).
  Section Run.
    Variables (ops : list (op xr)) (rs : list R) (v : R).
    Hypotheses (Hf : fine ops) (Hi : items_of ops = map XFin rs) (Hne : rs <> []) (Hlen : (Z.of_nat (length rs) <= lim)%Z).
    Let q0 := below v rs / size rs.
    Let q1 := upto v rs / size rs.
    Let bL := aL rs v.
    Let bH := aH (map Ropp rs) (- v).
    Let PL := exec D l0 (ops ++ [Quant (XFin v)]).
    Let PH := exec D h0 (map mirror ops ++ [Quant (XFin (- v))]).
    Let Hne' : map Ropp rs <> [].
    Proof using Hne. destruct rs; [congruence|discriminate]. Qed.
    Let Hlen' : (Z.of_nat (length (map Ropp rs)) <= lim)%Z.
    Proof using Hlen. now rewrite map_length. Qed.
    Let Hs : 0 < size rs.
    Proof using Hne. destruct rs; [congruence|]. cbn [length]. rewrite S_INR. pose proof (pos_INR (length l)). lra. Qed.
    Let SL_ : sound l0 ops.
    Proof using UL Hf Hi Hlen. apply (unbiased_sound UL Hf). now rewrite Hi, map_length. Qed.
    Let SH_ : sound h0 (map mirror ops).
    Proof using UH Hf Hi Hlen. apply (unbiased_sound UH (fine_mirror Hf)). now rewrite (mirror_items _ _ Hi), !map_length. Qed.
    Let FL_ := ub_finite UL v Hf Hi Hne Hlen.
    Let FH_ := ub_finite UH (- v) (fine_mirror Hf) (mirror_items _ _ Hi) Hne' Hlen'.
    Let TL : always (fun _ => True) PL.
    Proof using UL Hf Hi Hne Hlen. eapply always_mono; [exact FL_|auto]. Qed.
    Let TH : always (fun _ => True) PH.
    Proof using UH Hf Hi Hne Hlen. eapply always_mono; [exact FH_|auto]. Qed.
    Let upto_high : 1 - upto (- v) (map Ropp rs) / size (map Ropp rs) = q0.
    Proof using Hne. destruct (below_upto_mirror (- v) rs) as [_ ->]. rewrite map_length, Ropp_involutive. unfold q0. field. lra. Qed.
    Let MH : expect (fun r => 1 - last_answer r) PH = q0.
    Proof using UH Hf Hi Hne Hlen.
      transitivity (expect (fun _ => 1) PH + -1 * expect last_answer PH).
      - rewrite <- expect_scal, <- expect_plus. apply expect_ext. intros r. lra.
      - rewrite expect_const by exact TH. rewrite <- upto_high. pose proof (ub_mean UH (- v) (fine_mirror Hf) (mirror_items _ _ Hi) Hne' Hlen') as E. fold PH in E. rewrite E. lra.
    Qed.
    Let VL : expect (fun r => (last_answer r - q1) ^ 2) PL <= bL.
    Proof using UL Hf Hi Hne Hlen. exact (ub_mse UL v Hf Hi Hne Hlen). Qed.
    Let VH : expect (fun r => (1 - last_answer r - q0) ^ 2) PH <= bH.
    Proof using UH Hf Hi Hne Hlen.
      eapply Rle_trans; [|exact (ub_mse UH (- v) (fine_mirror Hf) (mirror_items _ _ Hi) Hne' Hlen')]. fold PH. right. apply expect_ext. intros r.
      rewrite <- upto_high. ring.
    Qed.
    Let ML : expect last_answer PL = q1 := ub_mean UL v Hf Hi Hne Hlen.

    Theorem sym_mse : expect (fun r => off q0 q1 (last_answer r) ^ 2) (exec SD (Sym D l0 h0) (ops ++ [Quant (XFin v)])) <= bL + bH.
    Proof using UL UH Hf Hi Hne Hlen.
      rewrite (@sym_expect ops v (fun x => off q0 q1 x ^ 2) (proj1 Hf) SL_ SH_ FL_ FH_). apply (@pick_mse _ _ _ _ _ _ q0 q1 bL bH TL TH VL VH).
      unfold q0, q1, Rdiv. apply Rmult_le_compat_r; [left; now apply Rinv_0_lt_compat|apply below_upto].
    Qed.
    Theorem sym_low t : q0 + q1 < 1 -> 0 < t ->
      prob (fun r => if Rle_dec t (Rabs (last_answer r - q1)) then true else false) (exec SD (Sym D l0 h0) (ops ++ [Quant (XFin v)])) <= bL / t ^ 2 + (bL + bH) / (1 - q0 - q1) ^ 2.
    Proof using UL UH Hf Hi Hne Hlen.
      intros H1 Ht. eapply Rle_trans; [|exact (@pick_low _ _ _ _ _ _ q0 q1 bL bH TL TH ML VL VH t H1 Ht)]. right.
      refine (eq_trans _ (@sym_expect ops v (fun x => far q1 t x) (proj1 Hf) SL_ SH_ FL_ FH_)). unfold prob. apply expect_ext. intros r. unfold far. destruct (Rle_dec t (Rabs (last_answer r - q1))); reflexivity.
    Qed.
    Theorem sym_high t : 1 < q0 + q1 -> 0 < t ->
      prob (fun r => if Rle_dec t (Rabs (last_answer r - q0)) then true else false) (exec SD (Sym D l0 h0) (ops ++ [Quant (XFin v)])) <= bH / t ^ 2 + (bL + bH) / (q0 + q1 - 1) ^ 2.
    Proof using UL UH Hf Hi Hne Hlen.
      intros H1 Ht. eapply Rle_trans; [|exact (@pick_high _ _ _ _ _ _ q0 q1 bL bH TL TH ML VL VH t H1 Ht)]. right.
      refine (eq_trans _ (@sym_expect ops v (fun x => far q0 t x) (proj1 Hf) SL_ SH_ FL_ FH_)). unfold prob. apply expect_ext. intros r. unfold far. destruct (Rle_dec t (Rabs (last_answer r - q0))); reflexivity.
    Qed.
  End Run.
End Halves.

(* ------------------------------------------------------------------ *)
(** * Estimates with an absolute and a relative bound *)
Lemma unbiased_min (D : digest xr) s0 lim (a b : list R -> R -> R) : unbiased D s0 lim a -> unbiased D s0 lim b -> unbiased D s0 lim (fun rs v => Rmin (a rs v) (b rs v)).
Proof.
  intros U V. split; [exact (ub_runs U)|exact (ub_finite U)|exact (ub_mean U)|]. intros ops rs v Hf Hi Hne Hl.
  apply Rmin_glb; [exact (ub_mse U v Hf Hi Hne Hl)|exact (ub_mse V v Hf Hi Hne Hl)].
Qed.

(** a digest accurate relative to the rank becomes, in a SymDigest, accurate relative to the distance from the nearer end *)
Theorem sym_relative (D : digest xr) s0 lim b c ops rs v t :
  unbiased D s0 lim (fun _ _ => b) -> unbiased D s0 lim (fun rs v => c * (upto v rs / size rs) ^ 2) ->
  fine ops -> items_of ops = map XFin rs -> rs <> [] -> (Z.of_nat (length rs) <= lim)%Z -> 0 < t ->
  let q0 := below v rs / size rs in
  let q1 := upto v rs / size rs in
  let run := exec (sym_digest D) (Sym D s0 s0) (ops ++ [Quant (XFin v)]) in
  (0 < q1 -> q0 + q1 < 1 ->
    prob (fun r => if Rle_dec (t * q1) (Rabs (last_answer r - q1)) then true else false) run <= c / t ^ 2 + 2 * b / (1 - q0 - q1) ^ 2) /\
  (q0 < 1 -> 1 < q0 + q1 ->
    prob (fun r => if Rle_dec (t * (1 - q0)) (Rabs (last_answer r - q0)) then true else false) run <= c / t ^ 2 + 2 * b / (q0 + q1 - 1) ^ 2).
Proof.
  intros U V Hf Hi Hne Hl Ht q0 q1 run. pose proof (unbiased_min U V) as W.
  assert (forall x y e, 0 < e -> x <= y -> x / e ^ 2 <= y / e ^ 2) as HD.
  { intros x y e He Hxy. unfold Rdiv. apply Rmult_le_compat_r; [|exact Hxy]. left. now apply Rinv_0_lt_compat, pow_lt. }
  split.
  - intros H1 H2. assert (0 < t * q1) as Htq by now apply Rmult_lt_0_compat.
    eapply Rle_trans; [exact (@sym_low D s0 s0 lim _ _ W W ops rs v Hf Hi Hne Hl (t * q1) H2 Htq)|]. cbv beta. apply Rplus_le_compat.
    + replace (c / t ^ 2) with (c * q1 ^ 2 / (t * q1) ^ 2) by (field; split; lra). apply HD; [exact Htq|]. apply Rmin_r.
    + apply HD; [unfold q0, q1 in *; lra|]. replace (2 * b) with (b + b) by ring. apply Rplus_le_compat; apply Rmin_l.
  - intros H1 H2. assert (0 < 1 - q0) as Hp by lra. assert (0 < t * (1 - q0)) as Htq by now apply Rmult_lt_0_compat.
    eapply Rle_trans; [exact (@sym_high D s0 s0 lim _ _ W W ops rs v Hf Hi Hne Hl (t * (1 - q0)) H2 Htq)|]. cbv beta. apply Rplus_le_compat.
    + replace (c / t ^ 2) with (c * (1 - q0) ^ 2 / (t * (1 - q0)) ^ 2) by (field; split; lra). apply HD; [exact Htq|].
      eapply Rle_trans; [apply Rmin_r|]. right. f_equal. f_equal. destruct (below_upto_mirror (- v) rs) as [_ ->]. rewrite map_length, Ropp_involutive.
      unfold q0. field. destruct rs; [congruence|]. cbn [length]. rewrite S_INR. pose proof (pos_INR (length rs)). lra.
    + apply HD; [unfold q0, q1 in *; lra|]. replace (2 * b) with (b + b) by ring. apply Rplus_le_compat; apply Rmin_l.
Qed.
