(** Property theorems C17 and C19 in IEEE arithmetic, and C71: the answers of TDigest and ParTDigest. *)
From Coq Require Import List Arith ZArith Lia Bool Reals.
From Flocq Require Import Core BinarySingleNaN.
From Verif Require Import Base Floats IEEE Digest TDigest ScaleFunctions Spec TDigestTop TDigestRange3 P_Parallel P_TDigest P_Cluster.
Set Implicit Arguments.

(* ------------------------------------------------------------------ *)
(** * C17 and C19 *)

(** f64: finite values of magnitude up to 2^900, up to 2^52 items, any order of calls, any scale function. *)
Theorem C17_range_f64 : forall cfg : tcfg f64, lib_ok cfg -> forall ops, Forall f64_ok ops -> items_of ops <> [] -> (Z.of_nat (length (items_of ops)) <= 2 ^ 52)%Z ->
  always (fun r => forall v, fisnan v = false ->
      exists a, d_est_q (t_digest cfg) (fst r) v = Ret (fst r, a) /\ fle (fofZ 0) a = true /\ fle a (fofZ 1) = true)
    (exec (t_digest cfg) td_new ops).
Proof. exact td_unit_f64. Qed.
Print Assumptions C17_range_f64.

(** f32: magnitude up to 2^100, up to 2^23 items. *)
Theorem C17_range_f32 : forall cfg : tcfg f32, lib_ok cfg -> forall ops, Forall f32_ok ops -> items_of ops <> [] -> (Z.of_nat (length (items_of ops)) <= 2 ^ 23)%Z ->
  always (fun r => forall v, fisnan v = false ->
      exists a, d_est_q (t_digest cfg) (fst r) v = Ret (fst r, a) /\ fle (fofZ 0) a = true /\ fle a (fofZ 1) = true)
    (exec (t_digest cfg) td_new ops).
Proof. exact td_unit_f32. Qed.
Print Assumptions C17_range_f32.

Theorem C19_no_panic_f32 : forall cfg : tcfg f32, lib_ok cfg -> forall ops, Forall f32_ok ops -> (Z.of_nat (length (items_of ops)) <= 2 ^ 23)%Z ->
  always (fun r => d_count (t_digest cfg) (fst r) = Ret (Z.of_nat (length (items_of ops))) /\
                   (forall v, fisnan v = false -> exists a, d_est_q (t_digest cfg) (fst r) v = Ret (fst r, a)) /\
                   (forall q p, fval q = XFin p -> (0 <= p <= 1)%R -> exists a, d_est_v (t_digest cfg) (fst r) q = Ret (fst r, a)))
    (exec (t_digest cfg) td_new ops).
Proof. exact td_total_f32. Qed.
Print Assumptions C19_no_panic_f32.

Definition lin32 (cf : Z) : digest f32 := t_digest (plain k0 inv_k0 (fofZ cf)).
(** ten tenths merged into two centroids, and a fifth *)
Example C17_rounded_nonvacuous :
  match (do (s, a) <- exec (lin32 4) td_new [AddBuf (repeat (frat 1 10) 10); Add (frat 1 5); Quant (frat 1 10); Quant (frat 3 20)]; Ret a) with
  | Ret [a; b] => flt (fofZ 0) a && flt a b && flt b (fofZ 1)
  | _ => false end = true.
Proof. vm_compute. reflexivity. Qed.

(* ------------------------------------------------------------------ *)
(** * C71 *)

(** ParTDigest: every call returns; the count is exact, quantile answers are in [0,1]. *)
Theorem C71_parallel_f64 : forall threads capacity, 1 <= threads -> forall cfg : tcfg f64, lib_ok cfg -> forall ops,
  Forall f64_ok ops -> items_of ops <> [] -> (Z.of_nat (length (items_of ops)) <= 2 ^ 52)%Z ->
  always (fun r => let D := par_t_digest cfg threads capacity td_new in
      d_count D (fst r) = Ret (Z.of_nat (length (items_of ops))) /\
      (forall v, fisnan v = false -> exists s' a, d_est_q D (fst r) v = Ret (s', a) /\ fle (fofZ 0) a = true /\ fle a (fofZ 1) = true) /\
      (forall q p, fval q = XFin p -> (0 <= p <= 1)%R -> exists s' a, d_est_v D (fst r) q = Ret (s', a)))
    (exec (par_t_digest cfg threads capacity td_new) (pt_new td_new) ops).
Proof. exact pt_unit_f64. Qed.
Print Assumptions C71_parallel_f64.

Theorem C71_parallel_f32 : forall threads capacity, 1 <= threads -> forall cfg : tcfg f32, lib_ok cfg -> forall ops,
  Forall f32_ok ops -> items_of ops <> [] -> (Z.of_nat (length (items_of ops)) <= 2 ^ 23)%Z ->
  always (fun r => let D := par_t_digest cfg threads capacity td_new in
      d_count D (fst r) = Ret (Z.of_nat (length (items_of ops))) /\
      (forall v, fisnan v = false -> exists s' a, d_est_q D (fst r) v = Ret (s', a) /\ fle (fofZ 0) a = true /\ fle a (fofZ 1) = true) /\
      (forall q p, fval q = XFin p -> (0 <= p <= 1)%R -> exists s' a, d_est_v D (fst r) q = Ret (s', a)))
    (exec (par_t_digest cfg threads capacity td_new) (pt_new td_new) ops).
Proof. exact pt_unit_f32. Qed.
Print Assumptions C71_parallel_f32.

(** The magnitude bound matters: the sum of the largest numbers overflows, the two infinite means of opposite sign merge to NaN,
    and the next call panics. *)
Theorem C71_huge_values_panic : exists (threads capacity : nat) (cf : Z) (batch : list f64),
  1 <= threads /\ forallb (fun x => fle (fabs x) fmaxval) batch = true /\
  is_panic (par_run threads capacity cf [AddBuf batch; Quant (w64 0)]) = false /\
  is_panic (par_run threads capacity cf [AddBuf batch; Quant (w64 0); Add (w64 0); Quant (w64 0)]) = true.
Proof. exists 2, 1, 1%Z, [fminval; fminval; fmaxval; fmaxval]. split; [lia|]. vm_compute. repeat split. Qed.
Print Assumptions C71_huge_values_panic.

Example C71_nonvacuous :
  match par_run 2 3 4 [AddBuf (map w64 [3; 1; 2; 8; 9]%Z); Add (w64 7); Quant (w64 5); Add (w64 4); Quant (w64 5); Val (frat 1 2)] with
  | Ret [a; b; c] => flt f0 a && flt a b && flt b f1 && flt (w64 3) c && flt c (w64 7)
  | _ => false end = true.
Proof. vm_compute. reflexivity. Qed.
