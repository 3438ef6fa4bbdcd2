(** Eighths are floats; the wrappers over RCSketch in exact arithmetic. *)
From Coq Require Import List Arith ZArith NArith Lia Bool Reals Lra.
From Flocq Require Import Core.
From Verif Require Import Base Floats XReal IEEE.
Set Implicit Arguments.
Local Open Scope R_scope.

Section Eighths.
  Variables prec emax : Z.
  Lemma eighth_exact : (5 <= prec)%Z -> (prec + 8 <= emax)%Z -> forall z, (0 <= z <= 16)%Z -> bexact prec emax (IZR z / 8).
  Proof.
    intros Hp He z Hz. assert (IZR z / 8 = F2R (Float radix2 z (-3))) as E by (unfold F2R; cbn; lra).
    split.
    - rewrite E. assert (Prec_gt_0 prec) by (unfold Prec_gt_0; lia). apply generic_format_FLT. exists (Float radix2 z (-3)); cbn [Fnum Fexp]; auto.
      + rewrite Z.abs_eq by lia. change (radix_val radix2) with 2%Z. apply Z.le_lt_trans with (2 ^ 4)%Z; [lia|]. apply Z.pow_lt_mono_r; lia.
      + unfold SpecFloat.emin. lia.
    - rewrite Rabs_pos_eq. 2: { apply Rmult_le_pos; [apply IZR_le; lia|lra]. }
      apply Rlt_le_trans with (bpow radix2 2); [|apply bpow_le; lia]. cbn. assert (IZR z <= 16) by (apply IZR_le; lia). lra.
  Qed.
End Eighths.
(** eighths up to 2 are floats, in each of the three instances *)
Lemma eighths_xr B (HB : (4096 <= B)%Z) z : (0 <= z <= 16)%Z -> @fexact xr _ (xr_laws HB) (IZR z / 8).
Proof. intros _. exact I. Qed.
Lemma eighths_64 z : (0 <= z <= 16)%Z -> @fexact f64 _ f64_laws (IZR z / 8).
Proof. apply (@eighth_exact 53 1024); lia. Qed.
Lemma eighths_32 z : (0 <= z <= 16)%Z -> @fexact f32 _ f32_laws (IZR z / 8).
Proof. apply (@eighth_exact 24 128); lia. Qed.

From Verif Require Import Digest Spec FloatFacts History TDigest RCSketch RCProofs RCHist RCTop RCSym.
Local Open Scope nat_scope.

(** the results of RCSym, for the buffer size the constructor computes *)
Section Sized.
  Context {F : Type} {FO : FloatOps F} {FL : FloatLaws F}.
  Variables (lg : F -> F) (n k : nat).
  Hypothesis Hp : rc_params lg n k.
  Hypothesis Hu : (N.of_nat (n / k) <= u32_max)%N.
  Hypothesis He : Nat.even k = true.
  Hypothesis Hi : (Z.of_nat n <= fint)%Z.
  Variable ops : list (op F).
  Hypothesis Hok : ok_hist (sym_rc_allowed n) [] ops.
  Hypothesis Hne : items_of ops <> [].
  Notation items := (items_of ops).
  Notation N := (length (items_of ops)).
  Variable bs : nat.
  Hypothesis Hb : calc_buffer_size lg n k = Ret bs.
  Lemma sized : bs = spec_size n k.
  Proof using Hp Hb. pose proof (@calc_size F FO FL lg n k Hp) as E. rewrite Hb in E. now injection E. Qed.

  Theorem symrc_value_low q r t : fval q = XFin r -> (0 <= r < 1/2)%R -> fval (fmul q (fofZ (Z.of_nat N))) = XFin t -> (t < INR (bs / 2))%R ->
    always (fun x => In x items /\ (INR (n_lt items x) <= t < INR (n_le items x))%R) (sym_rc_value lg n k ops q).
  Proof using FL Hp Hu He Hi Hok Hne Hb. rewrite sized. exact (@sym_value_low F FO FL lg n k Hp Hu He Hi ops Hok Hne q r t). Qed.
  Theorem symrc_value_high q r t : fval q = XFin r -> (1/2 < r <= 1)%R -> fval (fmul (fsub f1 q) (fofZ (Z.of_nat N))) = XFin t -> (t < INR (bs / 2))%R ->
    always (fun x => (exists z, In z items /\ fval x = fval z) /\ (INR (n_lt items x) < INR N - t <= INR (n_le items x))%R) (sym_rc_value lg n k ops q).
  Proof using FL Hp Hu He Hi Hok Hne Hb. rewrite sized. exact (@sym_value_high F FO FL lg n k Hp Hu He Hi ops Hok Hne q r t). Qed.
  Theorem symrc_value_worst q r h : fval q = XFin r -> (0 <= r <= 1)%R -> r <> (1/2)%R -> N < bs * 2 ^ h ->
    exists t t', fval (fmul q (fofZ (Z.of_nat N))) = XFin t /\ fval (fmul (fsub f1 q) (fofZ (Z.of_nat N))) = XFin t' /\
    always (fun x => (exists z, In z items /\ fval x = fval z) /\
        let goal := (if Rlt_dec r (1/2) then t else INR N - t')%R in
        (INR (n_lt items x) - INR (h * N) / INR k <= goal <= INR (n_le items x) + INR (h * N) / INR k)%R) (sym_rc_value lg n k ops q).
  Proof using FL Hp Hu He Hi Hok Hne Hb. rewrite sized. exact (@sym_value_worst F FO FL lg n k Hp Hu He Hi ops Hok Hne q r h). Qed.
  Hypothesis H8 : forall z, (0 <= z <= 16)%Z -> fexact (IZR z / 8).
  Theorem symrc_quantile_low v h : fisnan v = false -> N < bs * 2 ^ h -> 4 * h <= k -> n_le items v <= bs / 2 -> 4 * n_le items v <= N ->
    always (fun a => fval a = frnd (INR (n_le items v) / INR N)) (sym_rc_quantile lg n k ops v).
  Proof using FL Hp Hu He Hi Hok Hne Hb H8. rewrite sized. exact (@sym_quantile_low F FO FL lg n k Hp Hu He Hi ops Hok Hne H8 v h). Qed.
  Theorem symrc_quantile_high v h : fisnan v = false -> N < bs * 2 ^ h -> 4 * h <= k -> N - n_lt items v <= bs / 2 -> 4 * (N - n_lt items v) <= N ->
    always (fun a => exists y, frnd (INR (N - n_lt items v) / INR N) = XFin y /\ fval a = frnd (1 - y)) (sym_rc_quantile lg n k ops v).
  Proof using FL Hp Hu He Hi Hok Hne Hb H8. rewrite sized. exact (@sym_quantile_high F FO FL lg n k Hp Hu He Hi ops Hok Hne H8 v h). Qed.
End Sized.
