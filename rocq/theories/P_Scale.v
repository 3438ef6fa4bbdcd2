(** Properties C22, C23 and C31-C33: the scale functions and what they do to the centroids of a t-digest. Exact arithmetic
    (real pi, log10, powf, asin and sin); the sort and the binary search of the library are arbitrary within their contract. *)
From Coq Require Import List Arith ZArith Lia Bool Permutation Sorted Reals Lra.
From Verif Require Import Base Floats XReal IEEE Digest TDigest ScaleFunctions Spec FloatFacts History TDigestExact TDigestTop ScaleProofs TDigestScale P_Parallel P_TDigest.
Set Implicit Arguments.
Local Open Scope R_scope.

(* ------------------------------------------------------------------ *)
(** * C22 *)

(** [unit_steps k inv cf n]: for 0 <= q < q' <= 1, if q' <= inv (k q + 1) then k q' <= k q + 1. It holds of every
    non-decreasing function with a right inverse, and of the six shipped pairs. *)
Theorem C22_unit_steps : forall (K I : R -> R) k inv cf n,
  (forall q, k (XFin q) (XFin cf) (XFin n) = XFin (K q)) -> (forall s, inv (XFin s) (XFin cf) (XFin n) = XFin (I s)) ->
  (forall a b, a <= b -> K a <= K b) -> (forall s, K (I s) = s) -> unit_steps k inv cf n.
Proof. exact unit_steps_inverse. Qed.
Print Assumptions C22_unit_steps.

(** A fresh digest after add_buffer: every centroid [c] of weight at least 2 starts at rank sum(pre) and ends at
    sum(pre) + weight, and the scale function grows by at most one in between. *)
Theorem C22_width_fresh : forall cfg cf, lib_ok cfg -> tc_cf cfg = XFin cf -> forall l, l <> [] ->
  let n := INR (length l) in unit_steps (tc_scale cfg) (tc_inv cfg) cf n ->
  exists s' cs, td_add_buffer cfg td_new (map XFin l) = Ret s' /\ listed s' cs /\
    forall pre c post, cs = pre ++ c :: post -> 2 <= snd c ->
      let left := sumR (map snd pre) / n in let right := (sumR (map snd pre) + snd c) / n in
      fle (tc_scale cfg (XFin right) (XFin cf) (XFin n)) (fadd (tc_scale cfg (XFin left) (XFin cf) (XFin n)) (XFin 1)) = true.
Proof. exact width_fresh. Qed.
Print Assumptions C22_width_fresh.

(** After any history: the new centroids are the averages of consecutive groups of the sorted old centroids and new items,
    and a group of two or more spans at most one unit. *)
Theorem C22_width : forall cfg cf, lib_ok cfg -> tc_cf cfg = XFin cf -> forall ops rs l, items_of ops = map XFin rs -> rs ++ l <> [] ->
  let n := INR (length (rs ++ l)) in unit_steps (tc_scale cfg) (tc_inv cfg) cf n ->
  whenever (fun r => exists s' old groups, td_add_buffer cfg (fst r) (map XFin l) = Ret s' /\ listed (fst r) old /\
      Permutation (concat groups) (map (fun x => (x, 1)) l ++ old) /\
      StronglySorted (fun a b => fst a <= fst b) (concat groups) /\ Forall (fun g => g <> []) groups /\
      listed s' (map (fun g => (sumR (map (fun c => fst c * snd c) g) / sumR (map snd g), sumR (map snd g))) groups) /\
      forall pre g post, groups = pre ++ g :: post -> (2 <= length g)%nat ->
        let left := sumR (map snd (concat pre)) / n in let right := (sumR (map snd (concat pre)) + sumR (map snd g)) / n in
        fle (tc_scale cfg (XFin right) (XFin cf) (XFin n)) (fadd (tc_scale cfg (XFin left) (XFin cf) (XFin n)) (XFin 1)) = true)
    (exec (t_digest cfg) td_new ops).
Proof. exact width_history. Qed.
Print Assumptions C22_width.

(** the hypothesis holds of the shipped pairs *)
Theorem C22_shipped : forall cf n, 0 < cf -> 0 < n ->
  unit_steps k0 inv_k0 cf n /\ unit_steps k1 inv_k1 cf n /\
  (0 < 4 * log10 (n / cf) + 24 -> unit_steps k2 inv_k2 cf n) /\
  (0 < 4 * log10 (n / cf) + 21 -> unit_steps k3 inv_k3 cf n) /\
  (0 < 4 * log10 (n / (cf * 2)) + 24 -> unit_steps k2_asym inv_k2_asym cf n) /\
  (let c := cf / 10 * (log10 n * log10 n) in n <> 1 -> 0 < 4 * log10 (n / c) + 24 -> unit_steps k2n inv_k2n cf n).
Proof. exact shipped_unit_steps. Qed.
Print Assumptions C22_shipped.

(** f64 runs with k0: at compression factor 4 one unit is half the ranks, at 6 a third *)
Example C22_nonvacuous : gives (do s <- state64 4 [AddBuf (map w64 [3; 1; 2; 6; 5; 4]%Z)]; Ret (map weight (t_centroids s))) (map w64 [3; 3]%Z) = true
  /\ gives (do s <- state64 6 [AddBuf (map w64 [3; 1; 2; 6; 5; 4]%Z)]; Ret (map weight (t_centroids s))) (map w64 [2; 2; 2]%Z) = true.
Proof. vm_compute. auto. Qed.

(* ------------------------------------------------------------------ *)
(** * C23 *)

(** [with_scale cfg k inv cf]: a digest built from the pair k, inv with compression factor cf. *)
Theorem C23_size_k0 : forall cfg cf ops rs, with_scale cfg k0 inv_k0 cf -> 0 < cf -> items_of ops = map XFin rs -> rs <> [] ->
  whenever (fun r => INR (length (t_centroids (fst r))) < cf + 1) (exec (t_digest cfg) td_new ops).
Proof. exact number_k0. Qed.
Print Assumptions C23_size_k0.

Theorem C23_size_k2 : forall cfg cf ops rs, with_scale cfg k2 inv_k2 cf -> 0 < cf <= 10 ^ 6 -> items_of ops = map XFin rs -> rs <> [] ->
  whenever (fun r => INR (length (t_centroids (fst r))) <= cf + 3) (exec (t_digest cfg) td_new ops).
Proof. exact bounded_k2. Qed.
Print Assumptions C23_size_k2.

Theorem C23_size_k3 : forall cfg cf ops rs, with_scale cfg k3 inv_k3 cf -> 0 < cf <= 10 ^ 5 -> items_of ops = map XFin rs -> rs <> [] ->
  whenever (fun r => INR (length (t_centroids (fst r))) <= cf + 3) (exec (t_digest cfg) td_new ops).
Proof. exact bounded_k3. Qed.
Print Assumptions C23_size_k3.

(** twice the scale span, plus three; for any compression factor above the degenerate threshold *)
Theorem C23_size_k2_span : forall cfg cf ops rs, with_scale cfg k2 inv_k2 cf -> 0 < cf -> items_of ops = map XFin rs -> (2 <= length rs)%nat ->
  let n := INR (length rs) in 0 < 4 * log10 (n / cf) + 24 ->
  whenever (fun r => INR (length (t_centroids (fst r))) <= 4 * cf * log10 (n - 1) / (4 * log10 (n / cf) + 24) + 3) (exec (t_digest cfg) td_new ops).
Proof. exact number_k2. Qed.
Print Assumptions C23_size_k2_span.

Theorem C23_size_k3_span : forall cfg cf ops rs, with_scale cfg k3 inv_k3 cf -> 0 < cf -> items_of ops = map XFin rs -> (2 <= length rs)%nat ->
  let n := INR (length rs) in 0 < 4 * log10 (n / cf) + 21 ->
  whenever (fun r => INR (length (t_centroids (fst r))) <= 4 * cf * log10 (n / 2) / (4 * log10 (n / cf) + 21) + 3) (exec (t_digest cfg) td_new ops).
Proof. exact number_k3. Qed.
Print Assumptions C23_size_k3_span.

Theorem C23_size_k2_asym_span : forall cfg cf ops rs, with_scale cfg k2_asym inv_k2_asym cf -> 0 < cf -> items_of ops = map XFin rs -> (2 <= length rs)%nat ->
  let n := INR (length rs) in 0 < 4 * log10 (n / (cf * 2)) + 24 ->
  whenever (fun r => INR (length (t_centroids (fst r))) <= 4 * cf * log10 (2 * n - 1) / (4 * log10 (n / (cf * 2)) + 24) + 3) (exec (t_digest cfg) td_new ops).
Proof. exact number_k2_asym. Qed.
Print Assumptions C23_size_k2_asym_span.

Theorem C23_size_k2n_span : forall cfg cf ops rs, with_scale cfg k2n inv_k2n cf -> 0 < cf -> items_of ops = map XFin rs -> (2 <= length rs)%nat ->
  let n := INR (length rs) in let c := cf / 10 * (log10 n * log10 n) in 0 < 4 * log10 (n / c) + 24 ->
  whenever (fun r => INR (length (t_centroids (fst r))) <= 4 * c * log10 (n - 1) / (4 * log10 (n / c) + 24) + 3) (exec (t_digest cfg) td_new ops).
Proof. exact number_k2n. Qed.
Print Assumptions C23_size_k2n_span.

(** k1: the sine wraps around, so past the 3/4 quantile no two items merge: at compression factor 3 any 4m items give m + 1
    centroids. No bound in terms of the compression factor exists. *)
Theorem C23_size_k1_refuted : exists cf, forall cfg, with_scale cfg k1 inv_k1 cf -> forall bound : nat, exists items s,
  td_add_buffer cfg td_new (map XFin items) = Ret s /\ (bound < length (t_centroids s))%nat.
Proof. exact number_k1_unbounded. Qed.
Print Assumptions C23_size_k1_refuted.
Theorem C23_size_k1_exact : forall cfg m l, with_scale cfg k1 inv_k1 3 -> (1 <= m)%nat -> length l = (4 * m)%nat ->
  exists s, td_add_buffer cfg td_new (map XFin l) = Ret s /\ length (t_centroids s) = (m + 1)%nat.
Proof. exact number_k1. Qed.
Print Assumptions C23_size_k1_exact.

Example C23_nonvacuous : with_scale (plain k2 inv_k2 (XFin 100)) k2 inv_k2 100.
Proof. split; [apply (@plain_ok _ _ (xr_laws (Z.le_refl 4096)))|auto]. Qed.
(** f64 runs with k0 *)
Example C23_tight : (do s <- state64 5 [AddBuf (map w64 [3; 1; 2; 6; 5; 4; 9; 7; 8; 10]%Z)]; Ret (length (t_centroids s))) = Ret 3%nat
  /\ (do s <- state64 3 [AddBuf (map w64 [3; 1; 2]%Z)]; Ret (length (t_centroids s))) = Ret 2%nat.
Proof. vm_compute. auto. Qed.

(* ------------------------------------------------------------------ *)
(** * C31 *)
Theorem C31_k0 : forall q cf n, cf <> 0 -> inv_k0 (k0 (XFin q) (XFin cf) n) (XFin cf) n = XFin q.
Proof. exact k0_inv. Qed.
Print Assumptions C31_k0.
Theorem C31_k1 : forall q cf n, cf <> 0 -> 0 <= q <= 1 -> inv_k1 (k1 (XFin q) (XFin cf) n) (XFin cf) n = XFin q.
Proof. exact k1_inv. Qed.
Print Assumptions C31_k1.
Theorem C31_k2 : forall q cf n, cf <> 0 -> 0 < n / cf -> 4 * log10 (n / cf) + 24 <> 0 -> 0 < q < 1 ->
  inv_k2 (k2 (XFin q) (XFin cf) (XFin n)) (XFin cf) (XFin n) = XFin q.
Proof. exact k2_inv. Qed.
Print Assumptions C31_k2.
Theorem C31_k2_asym : forall q cf n, cf <> 0 -> 0 < n / (cf * 2) -> 4 * log10 (n / (cf * 2)) + 24 <> 0 -> 0 < q < 2 ->
  inv_k2_asym (k2_asym (XFin q) (XFin cf) (XFin n)) (XFin cf) (XFin n) = XFin q.
Proof. exact k2_asym_inv. Qed.
Print Assumptions C31_k2_asym.
Theorem C31_k2n : forall q cf n, 0 < n -> let c := cf / 10 * (log10 n * log10 n) in 0 < n / c -> 4 * log10 (n / c) + 24 <> 0 -> 0 < q < 1 ->
  inv_k2n (k2n (XFin q) (XFin cf) (XFin n)) (XFin cf) (XFin n) = XFin q.
Proof. exact k2n_inv. Qed.
Print Assumptions C31_k2n.
Theorem C31_k3 : forall q cf n, cf <> 0 -> 0 < n / cf -> 4 * log10 (n / cf) + 21 <> 0 -> 0 < q < 1 ->
  inv_k3 (k3 (XFin q) (XFin cf) (XFin n)) (XFin cf) (XFin n) = XFin q.
Proof. exact k3_inv. Qed.
Print Assumptions C31_k3.

(** with n at least the compression factor the side conditions of k2 and k3 hold *)
Example C31_nonvacuous : inv_k2 (k2 (XFin (1 / 4)) (XFin 100) (XFin 1000)) (XFin 100) (XFin 1000) = XFin (1 / 4)
  /\ inv_k3 (k3 (XFin (1 / 4)) (XFin 100) (XFin 1000)) (XFin 100) (XFin 1000) = XFin (1 / 4).
Proof. exact k2_k3_case. Qed.

(* ------------------------------------------------------------------ *)
(** * C32: [up k q q']: both values are finite and k q < k q' *)
Theorem C32_k0 : forall cf n q q', 0 < cf -> q < q' -> up (fun x => k0 x (XFin cf) n) q q'.
Proof. exact k0_up. Qed.
Print Assumptions C32_k0.
Theorem C32_k1 : forall cf n q q', 0 < cf -> 0 <= q -> q < q' -> q' <= 1 -> up (fun x => k1 x (XFin cf) n) q q'.
Proof. exact k1_up. Qed.
Print Assumptions C32_k1.
Theorem C32_k2 : forall cf n q q', 0 < cf -> 0 < n -> 0 < 4 * log10 (n / cf) + 24 -> 0 < q -> q < q' -> q' < 1 ->
  up (fun x => k2 x (XFin cf) (XFin n)) q q'.
Proof. exact k2_up. Qed.
Print Assumptions C32_k2.
Theorem C32_k2_asym : forall cf n q q', 0 < cf -> 0 < n -> 0 < 4 * log10 (n / (cf * 2)) + 24 -> 0 < q -> q < q' -> q' < 2 ->
  up (fun x => k2_asym x (XFin cf) (XFin n)) q q'.
Proof. exact k2_asym_up. Qed.
Print Assumptions C32_k2_asym.
Theorem C32_k2n : forall cf n q q', 0 < cf -> 0 < n -> n <> 1 ->
  let c := cf / 10 * (log10 n * log10 n) in 0 < 4 * log10 (n / c) + 24 -> 0 < q -> q < q' -> q' < 1 ->
  up (fun x => k2n x (XFin cf) (XFin n)) q q'.
Proof. exact k2n_up. Qed.
Print Assumptions C32_k2n.
Theorem C32_k3 : forall cf n q q', 0 < cf -> 0 < n -> 0 < 4 * log10 (n / cf) + 21 -> 0 < q -> q < q' -> q' < 1 ->
  up (fun x => k3 x (XFin cf) (XFin n)) q q'.
Proof. exact k3_up. Qed.
Print Assumptions C32_k3.

(** the threshold is needed: with a compression factor more than 10^6 times the number of items k2 is decreasing *)
Theorem C32_k2_threshold : forall cf n q q', 0 < cf -> 0 < n -> 4 * log10 (n / cf) + 24 < 0 -> 0 < q -> q < q' -> q' < 1 ->
  up (fun x => k2 x (XFin cf) (XFin n)) q' q.
Proof. exact k2_down. Qed.
Print Assumptions C32_k2_threshold.

(** the premise holds whenever cf <= 10^6 n (and 10^5 n for k3) *)
Theorem C32_threshold : forall cf n, 0 < cf -> 0 < n -> (0 < 4 * log10 (n / cf) + 24 <-> cf < 10 ^ 6 * n).
Proof. exact threshold. Qed.
Print Assumptions C32_threshold.
Example C32_nonvacuous : 0 < 4 * log10 (1000 / 100) + 24.
Proof. apply threshold; lra. Qed.

(* ------------------------------------------------------------------ *)
(** * C33: [forward k inv cf n q]: inv (k q + 1) is a number and at least q *)
Theorem C33_forward_k0 : forall cf n, 0 < cf -> forall q, forward k0 inv_k0 cf n q.
Proof. exact k0_forward. Qed.
Print Assumptions C33_forward_k0.
Theorem C33_forward_k2 : forall cf n, 0 < cf -> 0 < n -> forall q, 0 < 4 * log10 (n / cf) + 24 -> 0 <= q < 1 -> forward k2 inv_k2 cf n q.
Proof. exact k2_forward. Qed.
Print Assumptions C33_forward_k2.
Theorem C33_forward_k2_asym : forall cf n q, 0 < cf -> 0 < n -> 0 < 4 * log10 (n / (cf * 2)) + 24 -> 0 <= q <= 1 ->
  forward k2_asym inv_k2_asym cf n q.
Proof. exact k2_asym_forward. Qed.
Print Assumptions C33_forward_k2_asym.
Theorem C33_forward_k2n : forall cf n q, 0 < cf -> 0 < n -> n <> 1 ->
  let c := cf / 10 * (log10 n * log10 n) in 0 < 4 * log10 (n / c) + 24 -> 0 <= q < 1 -> forward k2n inv_k2n cf n q.
Proof. exact k2n_forward. Qed.
Print Assumptions C33_forward_k2n.
Theorem C33_forward_k3 : forall cf n, 0 < cf -> 0 < n -> forall q, 0 < 4 * log10 (n / cf) + 21 -> 0 <= q < 1 -> forward k3 inv_k3 cf n q.
Proof. exact k3_forward. Qed.
Print Assumptions C33_forward_k3.
(** k1 only as long as the angle stays below a right angle ... *)
Theorem C33_forward_k1_partial : forall cf n, 0 < cf -> forall q, 0 <= q <= 1 -> asin (2 * q - 1) + 2 * PI / cf <= PI / 2 -> forward k1 inv_k1 cf n q.
Proof. exact k1_forward. Qed.
Print Assumptions C33_forward_k1_partial.
(** ... and every compression factor above 1 has quantiles where it steps back. *)
Theorem C33_k1_refuted : forall cf n, 1 < cf -> exists q x, 0 <= q < 1 /\
  inv_k1 (fadd (k1 (XFin q) (XFin cf) (XFin n)) (XFin 1)) (XFin cf) (XFin n) = XFin x /\ x < q.
Proof. exact k1_steps_back. Qed.
Print Assumptions C33_k1_refuted.
Example C33_nonvacuous : forward k2 inv_k2 100 1000 (1 / 4).
Proof. exact k2_forward_case. Qed.
