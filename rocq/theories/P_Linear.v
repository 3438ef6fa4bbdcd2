(** Properties C01-C03: LinearDigest, the exact reference digest. *)
From Coq Require Import List Arith ZArith Lia Bool Permutation Reals Lra.
From Flocq Require Import Core BinarySingleNaN.
From Verif Require Import Base Floats XReal IEEE Digest Spec FloatFacts History LinearProofs.
Set Implicit Arguments.

(** C01: whatever the history (NaN items and panicking calls included), if it returns, the stored values are
    exactly the supplied items and [count] is their number. *)
Theorem C01_linear_counts_every_item : forall F (FO : FloatOps F) (ops : list (op F)),
  whenever (fun r => Permutation (items_of ops) (fst r) /\
                     d_count (linear_digest F) (fst r) = Ret (Z.of_nat (length (items_of ops))))
           (exec (linear_digest F) linear_new ops).
Proof. exact @linear_count_ok. Qed.
Print Assumptions C01_linear_counts_every_item.

(** C01 (totality): a history that only supplies non-NaN items and only asks for values of quantiles in [0,1] of
    non-empty data never panics. *)
Theorem C01_linear_never_panics : forall F (FO : FloatOps F) (FL : FloatLaws F) (ops : list (op F)),
  ok_hist lin_ok [] ops ->
  (Z.of_nat (length (items_of ops)) <= fint)%Z -> (Z.of_nat (length (items_of ops)) < 2 ^ 64)%Z ->
  always (fun r => Permutation (items_of ops) (fst r)) (exec (linear_digest F) linear_new ops).
Proof. exact @linear_never_panics. Qed.
Print Assumptions C01_linear_never_panics.

(** f64 readings of integers, for the examples *)
Definition n64 (z : Z) : f64 := fofZ z.

Definition hist1 : list (op f64) := [Add (n64 3); AddBuf [n64 1; n64 2]; Val (frat 1 2); Add (n64 1); Quant (n64 1)].

Example C01_nonvacuous :
  match exec (linear_digest f64) linear_new hist1 with Ret _ => True | _ => False end /\ ok_hist lin_ok [] hist1
  /\ length (items_of hist1) = 4.
Proof.
  split; [|split; [|reflexivity]].
  - vm_compute. exact Logic.I.
  - unfold hist1. cbn [ok_hist lin_ok items_of app]. repeat split; try (vm_compute; reflexivity); try discriminate.
    + repeat constructor; vm_compute; reflexivity.
    + exists (1/2)%R. split; [apply fval_fhalf | lra].
Qed.

(** C02: on any non-empty data the answer is the mid-rank fraction, correctly rounded (exact in exact arithmetic);
    true for f64, f32 and exact reals as long as twice the number of items is exactly representable. *)
Theorem C02_quantile_is_mid_rank : forall F (FO : FloatOps F) (FL : FloatLaws F) (ops : list (op F)) (v : F),
  items_of ops <> [] -> (2 * Z.of_nat (length (items_of ops)) <= fint)%Z ->
  whenever (fun r => fval (linear_est_q (fst r) v)
                     = frnd (mid_rank (items_of ops) v / INR (length (items_of ops))))
           (exec (linear_digest F) linear_new ops).
Proof. exact @linear_hist_est_q. Qed.
Print Assumptions C02_quantile_is_mid_rank.

(** C02, exact arithmetic, no bound on the number of items *)
Theorem C02_quantile_is_mid_rank_exact : forall (ops : list (op xr)) (v : xr),
  items_of ops <> [] ->
  whenever (fun r => linear_est_q (fst r) v
                     = XFin (mid_rank (items_of ops) v / INR (length (items_of ops))))
           (exec (linear_digest xr) linear_new ops).
Proof. exact linear_hist_est_q_xr. Qed.
Print Assumptions C02_quantile_is_mid_rank_exact.

Theorem C02_quantile_in_unit_interval : forall F (FO : FloatOps F) (FL : FloatLaws F) (ops : list (op F)) (v : F),
  items_of ops <> [] -> (2 * Z.of_nat (length (items_of ops)) <= fint)%Z ->
  whenever (fun r => exists q, fval (linear_est_q (fst r) v) = XFin q /\ (0 <= q <= 1)%R)
           (exec (linear_digest F) linear_new ops).
Proof. exact @linear_hist_est_q_range. Qed.
Print Assumptions C02_quantile_in_unit_interval.

Theorem C02_quantile_monotone : forall F (FO : FloatOps F) (FL : FloatLaws F) (ops : list (op F)) (v1 v2 : F),
  items_of ops <> [] -> (2 * Z.of_nat (length (items_of ops)) <= fint)%Z -> fle v1 v2 = true ->
  whenever (fun r => fle (linear_est_q (fst r) v1) (linear_est_q (fst r) v2) = true)
           (exec (linear_digest F) linear_new ops).
Proof. exact @linear_hist_est_q_mono. Qed.
Print Assumptions C02_quantile_monotone.

(** depends only on the multiset supplied, not on order, batching or earlier queries (any arithmetic, NaN included) *)
Theorem C02_quantile_history_independent : forall F (FO : FloatOps F) (ops1 ops2 : list (op F)) (v : F),
  Permutation (items_of ops1) (items_of ops2) ->
  whenever (fun r1 => whenever (fun r2 =>
      linear_est_q (fst r1) v = linear_est_q (fst r2) v) (exec (linear_digest F) linear_new ops2))
    (exec (linear_digest F) linear_new ops1).
Proof. exact @linear_est_q_hist. Qed.
Print Assumptions C02_quantile_history_independent.

(** the f64 bound covers 2^52 items *)
Example C02_f64_bound : @fint f64 _ _ = (2 ^ 53)%Z. Proof. reflexivity. Qed.
Example C02_f32_bound : @fint f32 _ _ = (2 ^ 24)%Z. Proof. reflexivity. Qed.
(** items 3,1,2,1: the value 1 occurs twice, so its quantile is (0 + 2/2)/4 *)
Example C02_nonvacuous :
  items_of hist1 <> [] /\
  match exec (linear_digest f64) linear_new hist1 with
  | Ret (_, [_; a]) => feq a (frat 1 4) = true | _ => False end.
Proof. split; [discriminate|vm_compute; reflexivity]. Qed.

(** C03: for NaN-free non-empty data and q in [0,1] the value query never panics and returns the item at sorted
    position min(round(q*n), n-1), where q*n is computed with one rounding. *)
Theorem C03_value_is_order_statistic : forall F (FO : FloatOps F) (FL : FloatLaws F) (ops : list (op F)) (q : F) (r : R),
  items_of ops <> [] -> no_nan (items_of ops) -> (Z.of_nat (length (items_of ops)) <= fint)%Z ->
  (Z.of_nat (length (items_of ops)) < 2 ^ 64)%Z ->
  fval q = XFin r -> (0 <= r <= 1)%R ->
  exists p, frnd (r * INR (length (items_of ops))) = XFin p /\ (0 <= p <= INR (length (items_of ops)))%R /\
  whenever (fun res => always (fun res' =>
     order_stat (items_of ops) (Nat.min (Z.to_nat (ZnearestA p)) (length (items_of ops) - 1)) (snd res'))
       (d_est_v (linear_digest F) (fst res) q))
    (exec (linear_digest F) linear_new ops).
Proof. exact @linear_hist_est_v. Qed.
Print Assumptions C03_value_is_order_statistic.

Theorem C03_value_monotone : forall F (FO : FloatOps F) (FL : FloatLaws F) (l : list F) (q1 q2 : F) (r1 r2 : R),
  l <> [] -> no_nan l -> (Z.of_nat (length l) <= fint)%Z -> (Z.of_nat (length l) < 2 ^ 64)%Z ->
  fval q1 = XFin r1 -> fval q2 = XFin r2 -> (0 <= r1 <= r2)%R -> (r2 <= 1)%R ->
  always (fun a1 => always (fun a2 => fle (snd a1) (snd a2) = true)
     (d_est_v (linear_digest F) l q2)) (d_est_v (linear_digest F) l q1).
Proof. exact @linear_est_v_mono. Qed.
Print Assumptions C03_value_monotone.

(** an order statistic is unique up to float equality, so C03 pins the answer down *)
Theorem C03_order_statistic_unique : forall F (FO : FloatOps F) (FL : FloatLaws F) (l : list F) i x y,
  no_nan l -> order_stat l i x -> order_stat l i y -> feq x y = true.
Proof. exact @order_stat_unique. Qed.
Print Assumptions C03_order_statistic_unique.

(** the median of 1,1,2,3 by this rule is the item at position round(0.5*4) = 2 *)
Example C03_nonvacuous :
  no_nan (items_of hist1) /\
  match exec (linear_digest f64) linear_new (hist1 ++ [Val (frat 1 2)]) with
  | Ret (_, [_; _; a]) => feq a (n64 2) = true | _ => False end.
Proof. split; [repeat constructor; vm_compute; reflexivity|vm_compute; reflexivity]. Qed.
