(** Property C93: the private function [TDigest::interpolate_centroids_quantile]. *)
From Coq Require Import List Arith ZArith Lia Bool Reals Lra.
From Flocq Require Import Core BinarySingleNaN.
From Verif Require Import Base Floats XReal IEEE TDigest TDigestExact InterpQ P_Parallel.
Set Implicit Arguments.
Unset Universe Minimization ToSet.
Local Open Scope R_scope.

(** Exact arithmetic, finite arguments.  Two neighbouring centroids with means m1 < m2 and weights w1, w2 >= 0; q is the quantile of the
    border between them, W > 0 the total weight.  A target between the means gets a quantile between those of the centres of the two centroids, *)
Theorem C93_between : forall m1 w1 m2 w2 q W v, m1 < m2 -> 0 < W -> 0 <= w1 /\ 0 <= w2 -> m1 <= v <= m2 -> exists r,
  interpolate_centroids_quantile (Cen (XFin m1) (XFin w1)) (Cen (XFin m2) (XFin w2)) (XFin v) (XFin q) (XFin W) = XFin r
  /\ q - w1 / (2 * W) <= r <= q + w2 / (2 * W).
Proof. exact (fun m1 w1 m2 w2 q W v Hm HW Hw => @interp_between m1 w1 m2 w2 q W Hm HW Hw v). Qed.
Print Assumptions C93_between.
(** the means themselves get exactly the quantiles of the centres, *)
Theorem C93_ends : forall m1 w1 m2 w2 q W, m1 < m2 -> 0 < W ->
  interpolate_centroids_quantile (Cen (XFin m1) (XFin w1)) (Cen (XFin m2) (XFin w2)) (XFin m1) (XFin q) (XFin W) = XFin (q - w1 / (2 * W))
  /\ interpolate_centroids_quantile (Cen (XFin m1) (XFin w1)) (Cen (XFin m2) (XFin w2)) (XFin m2) (XFin q) (XFin W) = XFin (q + w2 / (2 * W)).
Proof. exact (fun m1 w1 m2 w2 q W Hm HW => conj (@interp_left m1 w1 m2 w2 q W Hm HW) (@interp_right m1 w1 m2 w2 q W Hm HW)). Qed.
Print Assumptions C93_ends.
(** and larger targets get larger quantiles: strictly, unless both weights are zero. *)
Theorem C93_monotone : forall m1 w1 m2 w2 q W v v', m1 < m2 -> 0 < W -> 0 < w1 + w2 -> v < v' -> exists r r',
  interpolate_centroids_quantile (Cen (XFin m1) (XFin w1)) (Cen (XFin m2) (XFin w2)) (XFin v) (XFin q) (XFin W) = XFin r
  /\ interpolate_centroids_quantile (Cen (XFin m1) (XFin w1)) (Cen (XFin m2) (XFin w2)) (XFin v') (XFin q) (XFin W) = XFin r' /\ r < r'.
Proof. exact (fun m1 w1 m2 w2 q W v v' Hm HW => @interp_strict m1 w1 m2 w2 q W Hm HW v v'). Qed.
Print Assumptions C93_monotone.

(** It is not usable for two centroids with the same mean (equal items): the answer is NaN. *)
Theorem C93_same_mean_nan : forall m w1 w2 q W, 0 < W ->
  interpolate_centroids_quantile (Cen (XFin m) (XFin w1)) (Cen (XFin m) (XFin w2)) (XFin m) (XFin q) (XFin W) = XNaN.
Proof. exact interp_same_mean. Qed.
Print Assumptions C93_same_mean_nan.

(** in f64: means 10 and 20 of weights 2 and 4, total weight 8, border at 1/4: the target 15 gets 5/16, between 1/8 and 1/2 *)
Example C93_nonvacuous :
  feq (interpolate_centroids_quantile (Cen (w64 10) (w64 2)) (Cen (w64 20) (w64 4)) (w64 15) (frat 1 4) (w64 8)) (frat 5 16) = true.
Proof. vm_compute. reflexivity. Qed.
