(** The float-to-integer casts of RCSketch2 (rc_sketch2.rs:110 and 133) on every f32. *)
From Coq Require Import List Arith ZArith NArith Lia Bool Reals Lra.
From Flocq Require Import Core.
From Verif Require Import Base Floats XReal IEEE FloatFacts RCSketch RC2.
Set Implicit Arguments.

(** Rust's [x as uN]: toward zero, saturating at 0 and [top]; NaN gives 0 *)
Definition saturate (top : Z) (x : xr) : Z :=
  match x with XNaN => 0 | XInf neg => if neg then 0 else top | XFin r => Z.max 0 (Z.min top (Ztrunc r)) end%Z.

Lemma fgt_f0 (x : f32) : fgt x f0 = match xcmp (fval x) (XFin 0) with Some Gt => true | _ => false end.
Proof. unfold fgt. rewrite fcmp_val. now rewrite fval_f0. Qed.

Lemma cast_cases (x : f32) : match ftoZ x with
  | Some z => exists r, fval x = XFin r /\ (-1 < r < IZR (2 ^ 64))%R /\ z = Ztrunc r /\ (0 <= z < 2 ^ 64)%Z
  | None => forall top, (0 <= top < 2 ^ 64)%Z -> (if fgt x f0 then top else 0)%Z = saturate top (fval x) end.
Proof.
  destruct (fval x) as [|neg|r] eqn:E.
  - rewrite (@ftoZ_special f32 _ _ x (or_introl E)). intros top _. rewrite fgt_f0, E. reflexivity.
  - rewrite (@ftoZ_special f32 _ _ x (or_intror (ex_intro _ neg E))). intros top _. rewrite fgt_f0, E. now destruct neg.
  - assert ((-1 < r < IZR (2 ^ 64))%R \/ ~ (-1 < r < IZR (2 ^ 64))%R) as [H|H].
    { destruct (Rlt_dec (-1) r), (Rlt_dec r (IZR (2 ^ 64))); [left; tauto|right; tauto..]. }
    + rewrite (@ftoZ_fin f32 _ _ x r E H). exists r. split; [reflexivity|]. split; [exact H|]. split; [reflexivity|].
      destruct (Rle_dec 0 r) as [H0|H0].
      * rewrite Ztrunc_floor by exact H0. split; [apply Zfloor_lub; exact H0|]. apply lt_IZR. eapply Rle_lt_trans; [apply Zfloor_lb|apply H].
      * rewrite Ztrunc_ceil by lra. assert (Zceil r = 0%Z) as ->; [|lia]. apply Zceil_imp. cbn. lra.
    + rewrite (@ftoZ_none f32 _ _ x r E H). intros top Ht. rewrite fgt_f0, E. cbn [xcmp saturate].
      destruct (Rcompare_spec r 0) as [C|C|C].
      * rewrite Ztrunc_ceil by lra. assert (Zceil r <= -1)%Z by (apply Zceil_glb; apply Rnot_lt_le; intros D; apply H; split; [exact D|]; eapply Rlt_trans; [exact C|]; apply IZR_lt; reflexivity). lia.
      * exfalso. apply H. rewrite C. split; [lra|apply IZR_lt; reflexivity].
      * rewrite Ztrunc_floor by lra. assert (2 ^ 64 <= Zfloor r)%Z; [|lia]. apply Zfloor_lub. apply Rnot_lt_le. intros D. apply H. split; [lra|exact D].
Qed.

Theorem as_usize_saturates x : Z.of_N (as_usize x) = saturate (2 ^ 64 - 1) (fval x).
Proof.
  unfold as_usize. pose proof (cast_cases x) as H. destruct (ftoZ x) as [z|].
  - destruct H as (r & -> & _ & -> & Hz). cbn [saturate]. rewrite Z2N.id by apply Hz. lia.
  - rewrite <- (H (2 ^ 64 - 1)%Z) by (split; [discriminate|reflexivity]). now destruct (fgt x f0).
Qed.
Theorem as_u32_saturates x : Z.of_N (as_u32 x) = saturate (2 ^ 32 - 1) (fval x).
Proof.
  unfold as_u32. pose proof (cast_cases x) as H. destruct (ftoZ x) as [z|].
  - destruct H as (r & -> & _ & -> & Hz). cbn [saturate]. rewrite N2Z.inj_min, Z2N.id by apply Hz. change (Z.of_N u32_max) with (2 ^ 32 - 1)%Z. lia.
  - rewrite <- (H (2 ^ 32 - 1)%Z) by (split; [discriminate|reflexivity]). now destruct (fgt x f0).
Qed.
