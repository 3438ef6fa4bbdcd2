(** [TDigest::interpolate_centroids_quantile], a private function without callers. *)
From Coq Require Import List Arith ZArith Lia Bool Reals Lra.
From Flocq Require Import Core.
From Verif Require Import Base Floats XReal TDigest TDigestExact.
Set Implicit Arguments.

Section Interp.
  Context {F : Type} {FO : FloatOps F}.
  (** t_digest.rs:630-645 [interpolate_centroids_quantile] *)
  Definition interpolate_centroids_quantile (prev_centroid current_centroid : centroid F) (target_value current_quantile total_count : F) : F :=
    let prev_quantile := fsub current_quantile (fdiv (weight prev_centroid) (fmul (fofZ 2) total_count)) in
    let next_quantile := fadd current_quantile (fdiv (weight current_centroid) (fmul (fofZ 2) total_count)) in
    let proportion := fdiv (fsub target_value (mean prev_centroid)) (fsub (mean current_centroid) (mean prev_centroid)) in
    fadd (fmul proportion (fsub next_quantile prev_quantile)) prev_quantile.
End Interp.

Local Open Scope R_scope.
Lemma interp_fin m1 w1 m2 w2 v q W : m1 <> m2 -> W <> 0 ->
  interpolate_centroids_quantile (Cen (XFin m1) (XFin w1)) (Cen (XFin m2) (XFin w2)) (XFin v) (XFin q) (XFin W)
  = XFin ((v - m1) / (m2 - m1) * ((w1 + w2) / (2 * W)) + (q - w1 / (2 * W))).
Proof.
  intros Hm HW. unfold interpolate_centroids_quantile. cbn [mean weight]. change (fofZ 2) with (XFin 2).
  rewrite !xmul_fin, !xdiv_fin by lra. rewrite !xsub_fin, !xadd_fin, xsub_fin, xdiv_fin by lra. rewrite xmul_fin, xadd_fin. f_equal. field. split; lra.
Qed.

(** a weighted mean: the target splits the two means as the answer splits the two quantiles *)
Section Between.
  Variables m1 w1 m2 w2 q W : R.
  Hypothesis Hm : m1 < m2.
  Hypothesis HW : 0 < W.
  Hypothesis Hw : 0 <= w1 /\ 0 <= w2.
  Definition interp v := interpolate_centroids_quantile (Cen (XFin m1) (XFin w1)) (Cen (XFin m2) (XFin w2)) (XFin v) (XFin q) (XFin W).
  Lemma interp_left : interp m1 = XFin (q - w1 / (2 * W)).
  Proof using Hm HW. unfold interp. rewrite interp_fin by lra. f_equal. field. lra. Qed.
  Lemma interp_right : interp m2 = XFin (q + w2 / (2 * W)).
  Proof using Hm HW. unfold interp. rewrite interp_fin by lra. f_equal. field. lra. Qed.
  Lemma slope : 0 <= (w1 + w2) / (2 * W) / (m2 - m1).
  Proof using Hm HW Hw. apply Rmult_le_pos; [apply Rmult_le_pos; [lra|]|]; left; apply Rinv_0_lt_compat; lra. Qed.
  Lemma interp_line v : interp v = XFin ((v - m1) * ((w1 + w2) / (2 * W) / (m2 - m1)) + (q - w1 / (2 * W))).
  Proof using Hm HW. unfold interp. rewrite interp_fin by lra. f_equal. field. lra. Qed.
  Theorem interp_mono v v' : v <= v' -> exists r r', interp v = XFin r /\ interp v' = XFin r' /\ r <= r'.
  Proof using Hm HW Hw.
    intros H. rewrite !interp_line. do 2 eexists. split; [reflexivity|]. split; [reflexivity|]. pose proof slope. apply Rplus_le_compat_r, Rmult_le_compat_r; lra.
  Qed.
  Theorem interp_strict v v' : 0 < w1 + w2 -> v < v' -> exists r r', interp v = XFin r /\ interp v' = XFin r' /\ r < r'.
  Proof using Hm HW.
    intros Hs H. rewrite !interp_line. do 2 eexists. split; [reflexivity|]. split; [reflexivity|].
    apply Rplus_lt_compat_r, Rmult_lt_compat_r; [|lra]. apply Rmult_lt_0_compat; [apply Rmult_lt_0_compat; [lra|]|]; apply Rinv_0_lt_compat; lra.
  Qed.
  Theorem interp_between v : m1 <= v <= m2 -> exists r, interp v = XFin r /\ q - w1 / (2 * W) <= r <= q + w2 / (2 * W).
  Proof using Hm HW Hw.
    intros [H1 H2]. destruct (interp_mono H1) as (a & b & Ea & Eb & L). destruct (interp_mono H2) as (c & d & Ec & Ed & L').
    exists b. split; [exact Eb|]. rewrite interp_left in Ea. rewrite interp_right in Ed. rewrite Eb in Ec. inversion Ea. inversion Ed. inversion Ec. lra.
  Qed.
End Between.

Theorem interp_same_mean m w1 w2 q W : 0 < W ->
  interpolate_centroids_quantile (Cen (XFin m) (XFin w1)) (Cen (XFin m) (XFin w2)) (XFin m) (XFin q) (XFin W) = XNaN.
Proof.
  intros HW. unfold interpolate_centroids_quantile. cbn [mean weight]. rewrite xsub_fin.
  assert (fdiv (XFin (m - m)) (XFin (m - m)) = XNaN) as ->.
  { replace (m - m) with 0 by ring. cbn [fdiv xr_ops xdiv]. unfold rsign. rewrite Rcompare_Eq by reflexivity. reflexivity. }
  reflexivity.
Qed.
