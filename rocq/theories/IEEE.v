(** IEEE-754 binary64 / binary32 (Flocq's [binary_float], round to nearest even) as instances of [FloatOps]
    and proof that they satisfy [FloatLaws]. *)
From Coq Require Import List Arith ZArith Lia Bool Reals Lra.
From Flocq Require Import Core BinarySingleNaN.
From Verif Require Import Base Floats.
Set Implicit Arguments.
Local Open Scope R_scope.

Definition f64 := binary_float 53 1024.

Lemma prec53 : Prec_gt_0 53. Proof. reflexivity. Qed.
Lemma prec53_lt : Prec_lt_emax 53 1024. Proof. reflexivity. Qed.
Lemma prec24 : Prec_gt_0 24. Proof. reflexivity. Qed.
Lemma prec24_lt : Prec_lt_emax 24 128. Proof. reflexivity. Qed.

(** A float format: the two of Rust. *)
Class Fmt (prec emax : Z) := {
  fmt_prec_gt :> Prec_gt_0 prec;
  fmt_lt :> Prec_lt_emax prec emax;
  fmt_prec_ge : (13 <= prec)%Z;
}.
#[global] Instance fmt64 : Fmt 53 1024. Proof. exact (@Build_Fmt 53 1024 prec53 prec53_lt ltac:(lia)). Defined.
#[global] Instance fmt32 : Fmt 24 128. Proof. exact (@Build_Fmt 24 128 prec24 prec24_lt ltac:(lia)). Defined.

(** conversion between formats (Rust [as f64] / [as f32], and num_traits' [to_f64]/[F::from]) *)
Definition bconv {p e} p' e' {H : Prec_gt_0 p'} {H' : Prec_lt_emax p' e'} (x : binary_float p e) : binary_float p' e' :=
  match x with
  | B754_zero s => B754_zero s
  | B754_infinity s => B754_infinity s
  | B754_nan => B754_nan
  | B754_finite s m ex _ => binary_normalize p' e' _ _ mode_NE (cond_Zopp s (Zpos m)) ex s
  end.

Arguments bconv {p e} p' e' {H H'} x.

Section Fmt.
  Variables prec emax : Z.
  Context {FM : Fmt prec emax}.
  Notation bf := (binary_float prec emax).
  Notation fexp := (SpecFloat.fexp prec emax).
  Notation rnd := (round radix2 fexp ZnearestE).

  Definition bofZ (z : Z) : bf := binary_normalize prec emax _ _ mode_NE z 0 false.

  Definition btoZ (x : bf) : option Z :=
    if is_finite x then
      let t := Btrunc x in
      if (0 <=? t)%Z && (t <? 2 ^ 64)%Z then Some t else None
    else None.

  Definition bsum64 (l : list bf) : bf :=
    bconv prec emax (fold_left (Bplus mode_NE) (map (bconv 53 1024) l) (B754_zero false : f64)).

  Definition ieee_ops : FloatOps bf := {|
    fcmp := @Bcompare prec emax;
    fadd := Bplus mode_NE; fsub := Bminus mode_NE; fmul := Bmult mode_NE; fdiv := Bdiv mode_NE;
    fneg := @Bopp prec emax; fabs := @Babs prec emax;
    fround := Bnearbyint mode_NA;
    fofZ := bofZ;
    frat := fun p q => Bdiv mode_NE (bofZ p) (bofZ (Zpos q));
    ftoZ := btoZ;
    fnan := B754_nan; fpinf := B754_infinity false; fninf := B754_infinity true;
    fmaxval := Bmax_float; fminval := Bopp Bmax_float;
    fsum64 := bsum64;
  |}.

  Definition bval (x : bf) : xr :=
    match x with
    | B754_nan => XNaN
    | B754_infinity s => XInf s
    | B754_zero _ => XFin 0
    | B754_finite _ _ _ _ => XFin (B2R x)
    end.

  Definition brnd (r : R) : xr :=
    if Rlt_bool (Rabs (rnd r)) (bpow radix2 emax) then XFin (rnd r) else XInf (Rlt_bool r 0).

  Definition bexact (r : R) : Prop := generic_format radix2 fexp r /\ Rabs r < bpow radix2 emax.

  Lemma bval_fin x r : bval x = XFin r <-> is_finite x = true /\ B2R x = r.
  Proof.
    destruct x; cbn; split; intros H; try discriminate; try (destruct H; discriminate).
    - injection H; auto.
    - destruct H as [_ <-]; reflexivity.
    - injection H; auto.
    - destruct H as [_ <-]; reflexivity.
  Qed.

  Lemma rnd_0 : rnd 0 = 0.
  Proof. apply round_0. typeclasses eauto. Qed.

  (** common shape of Flocq's correctness theorems *)
  Lemma bval_of_correct (z : bf) r (s : bool) :
    (if Rlt_bool (Rabs (rnd r)) (bpow radix2 emax)
     then B2R z = rnd r /\ is_finite z = true
     else B2SF z = binary_overflow prec emax mode_NE s /\ (r <> 0 -> s = Rlt_bool r 0)) ->
    bval z = brnd r.
  Proof.
    unfold brnd. destruct (Rlt_bool_spec (Rabs (rnd r)) (bpow radix2 emax)) as [Hlt|Hge].
    - intros [H1 H2]. apply bval_fin; auto.
    - intros [H1 H2].
      assert (r <> 0) as Hr.
      { intros ->. rewrite rnd_0, Rabs_R0 in Hge. pose proof (bpow_gt_0 radix2 emax). lra. }
      rewrite <- (H2 Hr). destruct z; cbn in H1; try discriminate.
      injection H1 as ->. reflexivity.
  Qed.

  Lemma Bsign_neg (x : bf) : is_finite x = true -> Bsign x = true -> B2R x <= 0.
  Proof.
    destruct x as [s|s| |s m e Hb]; cbn; try discriminate; intros _ ->; try lra.
    apply F2R_le_0. cbn. lia.
  Qed.
  Lemma Bsign_pos (x : bf) : is_finite x = true -> Bsign x = false -> 0 <= B2R x.
  Proof.
    destruct x as [s|s| |s m e Hb]; cbn; try discriminate; intros _ ->; try lra.
    apply F2R_ge_0. cbn. lia.
  Qed.

  Lemma bcmp_val x y : Bcompare x y = xcmp (bval x) (bval y).
  Proof.
    destruct (is_finite x) eqn:Hx; [destruct (is_finite y) eqn:Hy|].
    - rewrite Bcompare_correct by assumption.
      rewrite (proj2 (bval_fin x (B2R x))) by auto.
      rewrite (proj2 (bval_fin y (B2R y))) by auto. reflexivity.
    - rewrite (proj2 (bval_fin x (B2R x))) by auto.
      destruct x as [|[]| |[]], y as [|[]| |[]]; try discriminate; reflexivity.
    - destruct x as [|[]| |[]], y as [|[]| |[]]; try discriminate; reflexivity.
  Qed.

  Lemma brnd_exact r : bexact r -> brnd r = XFin r.
  Proof.
    intros [H1 H2]. unfold brnd. rewrite round_generic by (auto; typeclasses eauto).
    rewrite Rlt_bool_true; auto.
  Qed.

  Lemma xle_fin' a b : xle (XFin a) (XFin b) <-> a <= b.
  Proof.
    unfold xle; cbn. destruct (Rcompare_spec a b); split; intros H0;
      try lra; try (destruct H0; discriminate); auto.
  Qed.

  Lemma rnd_sign r : rnd r < 0 -> r < 0.
  Proof.
    intros H. destruct (Rlt_or_le r 0) as [H0|H0]; auto.
    apply (round_le radix2 fexp ZnearestE) in H0. rewrite rnd_0 in H0. lra.
  Qed.
  Lemma rnd_sign' r : 0 < rnd r -> 0 < r.
  Proof.
    intros H. destruct (Rlt_or_le 0 r) as [H0|H0]; auto.
    apply (round_le radix2 fexp ZnearestE) in H0. rewrite rnd_0 in H0. lra.
  Qed.

  Lemma brnd_mono a b : a <= b -> xle (brnd a) (brnd b).
  Proof.
    intros H. pose proof (round_le radix2 fexp ZnearestE a b H) as Hr.
    pose proof (bpow_gt_0 radix2 emax) as Hp.
    unfold brnd.
    destruct (Rlt_bool_spec (Rabs (rnd a)) (bpow radix2 emax)) as [Ha|Ha];
    destruct (Rlt_bool_spec (Rabs (rnd b)) (bpow radix2 emax)) as [Hb|Hb].
    - now apply xle_fin'.
    - destruct (Rlt_bool_spec b 0) as [H0|H0]; [|left; reflexivity].
      apply Rabs_lt_inv in Ha.
      assert (rnd b <= 0). { destruct (Rle_or_lt (rnd b) 0); auto. apply rnd_sign' in H1. lra. }
      rewrite Rabs_left1 in Hb; lra.
    - destruct (Rlt_bool_spec a 0) as [H0|H0]; [left; reflexivity|].
      apply Rabs_lt_inv in Hb.
      assert (0 <= rnd a). { destruct (Rle_or_lt 0 (rnd a)); auto. apply rnd_sign in H1. lra. }
      rewrite Rabs_pos_eq in Ha; lra.
    - destruct (Rlt_bool_spec a 0); destruct (Rlt_bool_spec b 0); try (right; reflexivity); try (left; reflexivity).
      lra.
  Qed.

  Lemma bexact_scaled z k : (Z.abs z <= 2 ^ prec)%Z -> (-1 <= k <= 0)%Z -> bexact (F2R (Float radix2 z k)).
  Proof.
    intros Hz Hk. pose proof fmt_prec_ge as Hp.
    assert (prec < emax)%Z as He by exact fmt_lt.
    split.
    - destruct (Z.eq_dec (Z.abs z) (2 ^ prec)) as [E|E].
      + assert (F2R (Float radix2 z k) = bpow radix2 (prec + k) \/ F2R (Float radix2 z k) = - bpow radix2 (prec + k)) as Hc.
        { rewrite bpow_plus, <- (IZR_Zpower radix2 prec) by lia. change (Z.pow radix2 prec) with (2 ^ prec)%Z.
          unfold F2R; cbn [Fnum Fexp].
          destruct (Z.abs_eq_cases z (2 ^ prec)) as [Hc|Hc]; [rewrite (Z.abs_eq (2^prec)) by (apply Z.pow_nonneg; lia); exact E| |].
          - left. rewrite Hc. reflexivity.
          - right. rewrite Hc, opp_IZR. ring. }
        assert (generic_format radix2 fexp (bpow radix2 (prec + k))) as Hg.
        { apply generic_format_bpow. unfold SpecFloat.fexp, SpecFloat.emin. lia. }
        destruct Hc as [-> | ->]; [exact Hg | now apply generic_format_opp].
      + change fexp with (FLT_exp (SpecFloat.emin prec emax) prec).
        apply generic_format_FLT. exists (Float radix2 z k); cbn [Fnum Fexp]; auto.
        * change (radix_val radix2) with 2%Z. lia.
        * unfold SpecFloat.emin. lia.
    - rewrite <- F2R_Zabs. unfold F2R; cbn [Fnum Fexp].
      apply Rle_lt_trans with (bpow radix2 prec * 1).
      + apply Rmult_le_compat; try (apply IZR_le; lia); try apply bpow_ge_0.
        * rewrite <- (IZR_Zpower radix2 prec) by lia. apply IZR_le. exact Hz.
        * change 1 with (bpow radix2 0). apply bpow_le. lia.
      + rewrite Rmult_1_r. apply bpow_lt. exact He.
  Qed.

  Lemma bexact_int z : (Z.abs z <= 2 ^ prec)%Z -> bexact (IZR z).
  Proof.
    intros H. replace (IZR z) with (F2R (Float radix2 z 0)) by (unfold F2R; cbn; ring).
    apply bexact_scaled; auto; lia.
  Qed.
  Lemma bexact_half z : (Z.abs z <= 2 ^ prec)%Z -> bexact (IZR z / 2).
  Proof.
    intros H. replace (IZR z / 2) with (F2R (Float radix2 z (-1))) by (unfold F2R; cbn; field).
    apply bexact_scaled; auto; lia.
  Qed.

  Lemma bval_exact x r : bval x = XFin r -> bexact r.
  Proof.
    intros H. apply bval_fin in H as [H1 <-]. split.
    - apply generic_format_B2R.
    - apply abs_B2R_lt_emax.
  Qed.

  Lemma badd_fin x y a b : bval x = XFin a -> bval y = XFin b -> bval (Bplus mode_NE x y) = brnd (a + b).
  Proof.
    intros Hx Hy. apply bval_fin in Hx as [Fx <-]. apply bval_fin in Hy as [Fy <-].
    pose proof (Bplus_correct prec emax _ _ mode_NE x y Fx Fy) as HH.
    apply bval_of_correct with (s := Bsign x). cbn [round_mode] in HH.
    destruct (Rlt_bool _ _) in *; [tauto|].
    destruct HH as [H1 H2]. split; [exact H1|]. intros Hn.
    destruct (Bsign x) eqn:Sx.
    - rewrite Rlt_bool_true; auto. symmetry in H2. apply Bsign_neg in H2; auto. apply Bsign_neg in Sx; auto. lra.
    - rewrite Rlt_bool_false; auto. symmetry in H2. apply Bsign_pos in H2; auto. apply Bsign_pos in Sx; auto. lra.
  Qed.

  Lemma bsub_fin x y a b : bval x = XFin a -> bval y = XFin b -> bval (Bminus mode_NE x y) = brnd (a - b).
  Proof.
    intros Hx Hy. apply bval_fin in Hx as [Fx <-]. apply bval_fin in Hy as [Fy <-].
    pose proof (Bminus_correct prec emax _ _ mode_NE x y Fx Fy) as HH.
    apply bval_of_correct with (s := Bsign x). cbn [round_mode] in HH.
    destruct (Rlt_bool _ _) in *; [tauto|].
    destruct HH as [H1 H2]. split; [exact H1|]. intros Hn.
    destruct (Bsign x) eqn:Sx.
    - rewrite Rlt_bool_true; auto. symmetry in H2. apply negb_true_iff in H2.
      apply Bsign_pos in H2; auto. apply Bsign_neg in Sx; auto. lra.
    - rewrite Rlt_bool_false; auto. symmetry in H2. apply negb_false_iff in H2.
      apply Bsign_neg in H2; auto. apply Bsign_pos in Sx; auto. lra.
  Qed.

  Lemma sign_mult a b (sa sb : bool) :
    (if sa then a <= 0 else 0 <= a) -> (if sb then b <= 0 else 0 <= b) -> a * b <> 0 ->
    xorb sa sb = Rlt_bool (a * b) 0.
  Proof.
    intros Ha Hb Hn.
    assert (a <> 0) by (intros ->; apply Hn; ring).
    assert (b <> 0) by (intros ->; apply Hn; ring).
    destruct sa, sb; cbn.
    - rewrite Rlt_bool_false; auto. nra.
    - rewrite Rlt_bool_true; auto. nra.
    - rewrite Rlt_bool_true; auto. nra.
    - rewrite Rlt_bool_false; auto. nra.
  Qed.

  Lemma Bsign_cases (x : bf) : is_finite x = true -> if Bsign x then B2R x <= 0 else 0 <= B2R x.
  Proof.
    intros H. destruct (Bsign x) eqn:E; [now apply Bsign_neg | now apply Bsign_pos].
  Qed.

  Lemma bmul_fin x y a b : bval x = XFin a -> bval y = XFin b -> bval (Bmult mode_NE x y) = brnd (a * b).
  Proof.
    intros Hx Hy. apply bval_fin in Hx as [Fx <-]. apply bval_fin in Hy as [Fy <-].
    pose proof (Bmult_correct prec emax _ _ mode_NE x y) as HH.
    apply bval_of_correct with (s := xorb (Bsign x) (Bsign y)). cbn [round_mode] in HH.
    destruct (Rlt_bool _ _) in *.
    - rewrite Fx, Fy in HH. tauto.
    - split; [exact HH|]. intros Hn. apply sign_mult; auto; [exact (Bsign_cases x Fx)|exact (Bsign_cases y Fy)].
  Qed.

  Lemma bdiv_fin x y a b : bval x = XFin a -> bval y = XFin b -> b <> 0 -> bval (Bdiv mode_NE x y) = brnd (a / b).
  Proof.
    intros Hx Hy Hb. apply bval_fin in Hx as [Fx <-]. apply bval_fin in Hy as [Fy <-].
    pose proof (Bdiv_correct prec emax _ _ mode_NE x y Hb) as HH.
    apply bval_of_correct with (s := xorb (Bsign x) (Bsign y)). cbn [round_mode] in HH.
    destruct (Rlt_bool _ _) in *.
    - rewrite Fx in HH. tauto.
    - split; [exact HH|]. intros Hn. unfold Rdiv. apply sign_mult; auto; [exact (Bsign_cases x Fx)|].
      pose proof (Bsign_cases y Fy) as Hs. destruct (Bsign y).
      + assert (B2R y < 0) by lra. apply Rlt_le, Rinv_lt_0_compat; auto.
      + assert (0 < B2R y) by lra. apply Rlt_le, Rinv_0_lt_compat; auto.
  Qed.

  Lemma bval_zero x : bval x = XFin 0 -> exists s, x = B754_zero s.
  Proof.
    intros H. apply bval_fin in H as [H1 H2]. destruct x as [s|s| |s m e Hb]; try discriminate; [eauto|].
    exfalso. cbn in H2. apply eq_0_F2R in H2. destruct s; discriminate.
  Qed.

  Lemma bdiv_zero x y : bval x = XFin 0 -> bval y = XFin 0 -> bval (Bdiv mode_NE x y) = XNaN.
  Proof. intros H1 H2. apply bval_zero in H1 as [s ->]. apply bval_zero in H2 as [t ->]. reflexivity. Qed.

  Lemma bval_nan x : bval x = XNaN <-> x = B754_nan.
  Proof. destruct x; cbn; split; intros; try discriminate; auto. Qed.

  Lemma round_FIX0 (rd : R -> Z) r : round radix2 (FIX_exp 0) rd r = IZR (rd r).
  Proof.
    unfold round, scaled_mantissa, cexp, FIX_exp, F2R; cbn. now rewrite !Rmult_1_r.
  Qed.

  Lemma bround_fin x r : bval x = XFin r -> bval (Bnearbyint mode_NA x) = XFin (IZR (ZnearestA r)).
  Proof.
    intros H. apply bval_fin in H as [H1 <-].
    destruct (Bnearbyint_correct prec emax _ mode_NA x) as (A & B & _).
    apply bval_fin. split; [now rewrite B|]. rewrite A. apply round_FIX0.
  Qed.

  Lemma bofZ_val z : bval (bofZ z) = brnd (IZR z).
  Proof.
    pose proof (binary_normalize_correct prec emax _ _ mode_NE z 0 false) as HH. cbv zeta in HH.
    replace (F2R (Float radix2 z 0)) with (IZR z) in HH by (unfold F2R; cbn; ring).
    apply bval_of_correct with (s := Rlt_bool (IZR z) 0). cbn [round_mode] in HH. unfold bofZ.
    destruct (Rlt_bool (Rabs _) _); [tauto|]. split; auto.
  Qed.

  Lemma btrunc_val (x : bf) r : B2R x = r -> Btrunc x = Ztrunc r.
  Proof.
    intros <-. apply eq_IZR. rewrite (Btrunc_correct prec emax _). apply round_FIX0.
  Qed.

  Lemma btoZ_fin x r : bval x = XFin r -> -1 < r < IZR (2 ^ 64) -> btoZ x = Some (Ztrunc r).
  Proof.
    intros H [Hl Hh]. apply bval_fin in H as [H1 H2]. unfold btoZ. rewrite H1, (btrunc_val _ H2). cbv zeta.
    assert (0 <= Ztrunc r)%Z.
    { destruct (Rlt_or_le r 0) as [Hn|Hn].
      - rewrite Ztrunc_ceil by lra. apply Z.lt_pred_le. apply lt_IZR. apply Rlt_le_trans with r; [cbn; lra|].
        apply Zceil_ub.
      - rewrite Ztrunc_floor by lra. apply Zfloor_lub. exact Hn. }
    assert (Ztrunc r < 2 ^ 64)%Z.
    { destruct (Rlt_or_le r 0) as [Hn|Hn].
      - rewrite Ztrunc_ceil by lra. apply Z.le_lt_trans with 0%Z; [|reflexivity]. apply Zceil_glb. cbn; lra.
      - rewrite Ztrunc_floor by lra. apply lt_IZR. apply Rle_lt_trans with r; auto. apply Zfloor_lb. }
    rewrite (proj2 (Z.leb_le _ _)), (proj2 (Z.ltb_lt _ _)) by assumption. reflexivity.
  Qed.

  Lemma btoZ_none x r : bval x = XFin r -> ~ (-1 < r < IZR (2 ^ 64)) -> btoZ x = None.
  Proof.
    intros H Hn. apply bval_fin in H as [H1 H2]. unfold btoZ. rewrite H1, (btrunc_val _ H2). cbv zeta.
    destruct (Rlt_or_le (-1) r) as [Ha|Ha].
    - destruct (Rlt_or_le r (IZR (2 ^ 64))) as [Hb|Hb]; [tauto|].
      replace (Ztrunc r <? 2 ^ 64)%Z with false; [now rewrite andb_false_r|].
      symmetry. apply Z.ltb_ge. rewrite Ztrunc_floor.
      + now apply Zfloor_lub.
      + apply Rle_trans with (IZR (2 ^ 64)); auto. apply IZR_le. discriminate.
    - replace (0 <=? Ztrunc r)%Z with false; [reflexivity|].
      symmetry. apply Z.leb_gt. rewrite Ztrunc_ceil by lra.
      apply Z.le_lt_trans with (-1)%Z; [|reflexivity]. now apply Zceil_glb.
  Qed.

  Lemma btoZ_special x : (bval x = XNaN \/ exists s, bval x = XInf s) -> btoZ x = None.
  Proof. destruct x; cbn; intros [H|[t H]]; try discriminate; reflexivity. Qed.

  Lemma bneg_val x : bval (Bopp x) = xneg (bval x).
  Proof.
    destruct x as [s|s| |s m e Hb]; try reflexivity.
    - cbn. now rewrite Ropp_0.
    - unfold xneg, bval at 2. apply bval_fin. split; [reflexivity|]. apply B2R_Bopp.
  Qed.
  Lemma babs_val x : bval (Babs x) = xabs (bval x).
  Proof.
    destruct x as [s|s| |s m e Hb]; try reflexivity.
    - cbn. now rewrite Rabs_R0.
    - unfold xabs, bval at 2. apply bval_fin. split; [reflexivity|]. apply B2R_Babs.
  Qed.

  Lemma B2R_max_float : B2R (Bmax_float : bf) = bpow radix2 emax - bpow radix2 (emax - prec).
  Proof.
    pose proof fmt_prec_ge as Hp.
    unfold Bmax_float. rewrite B2R_SF2B. unfold SF2R, F2R; cbn [Fnum Fexp cond_Zopp].
    rewrite Pos2Z.inj_sub.
    2:{ change (Z.pos 1 < Z.pos (shift_pos (Z.to_pos prec) 1))%Z.
        rewrite shift_pos_correct, Z.mul_1_r, Z.pow_pos_fold, Z2Pos.id by lia.
        change 1%Z with (2 ^ 0)%Z. apply Z.pow_lt_mono_r; lia. }
    rewrite shift_pos_correct, Z.mul_1_r, Z.pow_pos_fold, Z2Pos.id by lia.
    rewrite minus_IZR. change (2 ^ prec)%Z with (radix2 ^ prec)%Z. rewrite IZR_Zpower by lia.
    rewrite Rmult_minus_distr_r, <- bpow_plus, Rmult_1_l. do 2 f_equal. ring.
  Qed.

  Lemma bmax_fin : is_finite (Bmax_float : bf) = true.
  Proof. unfold Bmax_float. now rewrite is_finite_SF2B. Qed.

  Lemma bmax_ge x r : bval x = XFin r -> xle (XFin r) (bval Bmax_float).
  Proof.
    intros H. apply bval_fin in H as [H1 <-].
    rewrite (proj2 (bval_fin Bmax_float _)) by (split; [apply bmax_fin | apply B2R_max_float]).
    apply xle_fin'. eapply Rle_trans; [apply Rle_abs|].
    apply abs_B2R_le_emax_minus_prec. typeclasses eauto.
  Qed.
  Lemma bmin_le x r : bval x = XFin r -> xle (bval (Bopp Bmax_float)) (XFin r).
  Proof.
    intros H. apply bval_fin in H as [H1 <-]. rewrite bneg_val.
    rewrite (proj2 (bval_fin Bmax_float _)) by (split; [apply bmax_fin | apply B2R_max_float]).
    cbn [xneg]. apply xle_fin'.
    assert (Rabs (B2R x) <= bpow radix2 emax - bpow radix2 (emax - prec)) as Ha
      by (apply abs_B2R_le_emax_minus_prec; typeclasses eauto).
    apply Rabs_le_inv in Ha. lra.
  Qed.
End Fmt.

Arguments ieee_ops prec emax {FM}.

Section Conv.
  Context {p e p' e' : Z} {F1 : Fmt p e} {F2 : Fmt p' e'}.

  Lemma bconv_fin (x : binary_float p e) r : bval x = XFin r -> bval (bconv p' e' x) = brnd p' e' r.
  Proof.
    destruct x as [s|s| |s m ex Hb]; try discriminate; intros H.
    - injection H as <-. rewrite brnd_exact; [reflexivity|].
      apply (bexact_int 0). apply Z.pow_nonneg. lia.
    - apply bval_fin in H as [_ <-]. cbn [bconv].
      pose proof (binary_normalize_correct p' e' _ _ mode_NE (cond_Zopp s (Zpos m)) ex s) as HH. cbv zeta in HH.
      fold (B2R (B754_finite s m ex Hb)) in HH.
      eapply bval_of_correct. cbn [round_mode] in HH.
      destruct (Rlt_bool (Rabs _) _); [split; apply HH|]. split; [exact HH|auto].
  Qed.
End Conv.

Section Sum.
  Variables prec emax : Z.
  Context {FM : Fmt prec emax}.

  Lemma fold_bplus_ints (l : list f64) zs (acc : f64) a :
    map (@bval 53 1024) l = map (fun z => XFin (IZR z)) zs -> Forall (fun z => (0 <= z)%Z) zs ->
    bval acc = XFin (IZR a) -> (0 <= a)%Z -> (a + fold_right Z.add 0%Z zs <= 2 ^ 53)%Z ->
    bval (fold_left (Bplus mode_NE) l acc) = XFin (IZR (a + fold_right Z.add 0%Z zs)).
  Proof.
    revert l acc a; induction zs as [|z zs IH]; intros [|x l] acc a Hl Hz Ha H0 Hs; try discriminate; cbn [fold_left fold_right].
    - rewrite Z.add_0_r. exact Ha.
    - cbn [map] in Hl. injection Hl as Hx Hl. inversion Hz as [|? ? Hz0 Hz1]; subst. cbv beta in Hz0.
      cbn [fold_right] in Hs.
      assert (0 <= fold_right Z.add 0%Z zs)%Z as Hnn.
      { clear -Hz1. induction Hz1; cbn; lia. }
      rewrite Z.add_assoc. apply IH; auto; try lia.
      rewrite (badd_fin _ _ Ha Hx). rewrite <- plus_IZR. apply brnd_exact, bexact_int; [typeclasses eauto|lia].
  Qed.

  Lemma bsum64_ints (l : list (binary_float prec emax)) zs :
    map (@bval _ _) l = map (fun z => XFin (IZR z)) zs -> Forall (fun z => (0 <= z)%Z) zs ->
    (fold_right Z.add 0%Z zs <= 2 ^ 53)%Z ->
    bval (bsum64 l) = brnd prec emax (IZR (fold_right Z.add 0%Z zs)).
  Proof.
    intros Hl Hz Hs. unfold bsum64. apply bconv_fin.
    replace (fold_right Z.add 0%Z zs) with (0 + fold_right Z.add 0%Z zs)%Z by reflexivity.
    apply fold_bplus_ints; auto; try reflexivity.
    revert l Hl Hs; induction Hz as [|z zs Hz0 Hz IH]; intros [|x l] Hl Hs; try discriminate; [reflexivity|].
    cbn [map fold_right] in *. injection Hl as Hx Hl.
    assert (0 <= fold_right Z.add 0%Z zs)%Z as Hnn.
    { clear -Hz. induction Hz; cbn; lia. }
    f_equal.
    - rewrite (bconv_fin _ Hx). apply brnd_exact, bexact_int; [typeclasses eauto|lia].
    - apply IH; auto. lia.
  Qed.

  Lemma pow_prec_ge : (4096 <= 2 ^ prec)%Z.
  Proof.
    pose proof fmt_prec_ge. change 4096%Z with (2 ^ 12)%Z. apply Z.pow_le_mono_r; lia.
  Qed.

  Lemma bexact_int_val z : (Z.abs z <= 2 ^ prec)%Z -> bval (bofZ z : binary_float prec emax) = XFin (IZR z).
  Proof. intros H. rewrite bofZ_val. now apply brnd_exact, bexact_int. Qed.

  Definition ieee_laws : @FloatLaws (binary_float prec emax) (ieee_ops prec emax).
  Proof.
    refine (@Build_FloatLaws _ (ieee_ops prec emax) (@bval prec emax) (brnd prec emax) (bexact prec emax) (2 ^ prec)
              _ _ _ _ pow_prec_ge _ _ _ _ _ _ _ _ _ _ _ _ _ _ _ _ _ _ _ _ _ _ _ _ _ _);
      cbn [ieee_ops fcmp fadd fsub fmul fdiv fneg fabs fround fofZ frat ftoZ fnan fpinf fninf fmaxval fminval fsum64].
    - solve [exact (@bcmp_val _ _ _) | exact (@bcmp_val _ _)].
    - intros r. unfold brnd. destruct (Rlt_bool _ _); discriminate.
    - solve [exact (@brnd_mono _ _ _) | exact (@brnd_mono _ _)].
    - solve [exact (@brnd_exact _ _ _) | exact (@brnd_exact _ _)].
    - solve [exact (@bexact_int _ _ _) | exact (@bexact_int _ _)].
    - solve [exact (@bexact_half _ _ _) | exact (@bexact_half _ _)].
    - solve [exact (@bval_exact _ _ _) | exact (@bval_exact _ _)].
    - solve [exact (@badd_fin _ _ _) | exact (@badd_fin _ _)].
    - solve [exact (@bsub_fin _ _ _) | exact (@bsub_fin _ _)].
    - solve [exact (@bmul_fin _ _ _) | exact (@bmul_fin _ _)].
    - solve [exact (@bdiv_fin _ _ _) | exact (@bdiv_fin _ _)].
    - solve [exact (@bdiv_zero _ _ _) | exact (@bdiv_zero _ _)].
    - intros x y H. apply bval_nan in H as ->. reflexivity.
    - intros x y H. apply bval_nan in H as ->. destruct x; reflexivity.
    - intros x y H. apply bval_nan in H as ->. reflexivity.
    - intros x y H. apply bval_nan in H as ->. reflexivity.
    - solve [exact (@bneg_val _ _ _) | exact (@bneg_val _ _)].
    - solve [exact (@babs_val _ _ _) | exact (@babs_val _ _)].
    - solve [exact (@bround_fin _ _ _) | exact (@bround_fin _ _)].
    - solve [exact (@bofZ_val _ _ _) | exact (@bofZ_val _ _)].
    - intros p q Hp Hq. apply bdiv_fin; try (apply bexact_int_val; auto; lia).
      apply IZR_neq. discriminate.
    - solve [exact (@btoZ_fin _ _ _) | exact (@btoZ_fin _ _)].
    - solve [exact (@btoZ_none _ _ _) | exact (@btoZ_none _ _)].
    - solve [exact (@btoZ_special _ _ _) | exact (@btoZ_special _ _)].
    - reflexivity.
    - reflexivity.
    - reflexivity.
    - solve [exact (@bmax_ge _ _ _) | exact (@bmax_ge _ _)].
    - solve [exact (@bmin_le _ _ _) | exact (@bmin_le _ _)].
    - exact bsum64_ints.
  Defined.
End Sum.

Arguments ieee_laws prec emax {FM}.
(** Rust's f64 and f32 *)
Definition f32 := binary_float 24 128.
#[global] Instance f64_ops : FloatOps f64 := ieee_ops 53 1024.
#[global] Instance f32_ops : FloatOps f32 := ieee_ops 24 128.
#[global] Instance f64_laws : FloatLaws f64 := ieee_laws 53 1024.
#[global] Instance f32_laws : FloatLaws f32 := ieee_laws 24 128.

(** sanity: 0.1 + 0.2 has the familiar f64 bit pattern *)
Example f64_01_02 : B2SF (fadd (frat 1 10) (frat 2 10) : f64) = SpecFloat.S754_finite false 5404319552844596 (-54).
Proof. vm_compute. reflexivity. Qed.
