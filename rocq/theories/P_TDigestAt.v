(** Properties C67 to C70: what a TDigest holds and answers after any history, in exact arithmetic. *)
From Coq Require Import List Arith ZArith Lia Bool Permutation Reals Lra.
From Verif Require Import Base Floats XReal IEEE Digest TDigest Spec FloatFacts TDigestExact TDigestTop ScaleFunctions ScaleProofs TDigestScale TDigestAcc TDigestAcc2 TDigestAt2 TDigestCap P_Parallel P_TDigest.
Set Implicit Arguments.
Local Open Scope R_scope.

(** [ops] is any history of additions and queries whose items are the reals [rs]; [listed s cs]: the centroids of [s] are [cs], given as
    pairs (mean, weight).  [q_is cfg s v a]: estimating the quantile of v answers a; [v_is cfg s q x]: estimating the value at q answers x. *)

(* ------------------------------------------------------------------ *)
(** * C67: every centroid is the mean of its own part of the items *)
Theorem C67_parts : forall cfg, lib_ok cfg -> forall ops rs, items_of ops = map XFin rs ->
  whenever (fun r => exists gs, Permutation (concat gs) rs /\ Forall (fun g => g <> []) gs /\
    listed (fst r) (map (fun g => (sumR g / size g, size g)) gs)) (exec (t_digest cfg) td_new ops).
Proof. exact @parts_top. Qed.
Print Assumptions C67_parts.

(** f64, k0 with cf = 4, two batches: the centroid 2 of weight 8 is the mean of 1, 1, 1, 1, 0, 2, 4, 6, and the centroid 9 of weight 8
    that of 5, 5, 9, 9, 8, 10, 12, 14; the parts need not be ranges *)
Example C67_nonvacuous : gives (flat (state64 4 [AddBuf (map w64 [0; 2; 4; 6; 8; 10; 12; 14]%Z); AddBuf (map w64 [5; 5; 1; 1; 1; 1; 9; 9]%Z)]))
  (map w64 [0; 14; 2; 8; 9; 8]%Z) = true.
Proof. vm_compute. reflexivity. Qed.

(* ------------------------------------------------------------------ *)
(** * C68: the answers are exactly these *)

(** [total l] is the weight of the centroids [l].  At the mean of one or more centroids: the weight before them plus half their weight,
    except that a single item counts nothing. *)
Theorem C68_quantile_at : forall cfg, lib_ok cfg -> forall ops rs, items_of ops = map XFin rs ->
  whenever (fun r => forall pre run post v, listed (fst r) (pre ++ run ++ post) ->
      Forall (fun c => fst c < v) pre -> Forall (fun c => fst c = v) run -> Forall (fun c => v < fst c) post ->
      run <> [] -> (2 <= length (pre ++ run ++ post))%nat -> ((2 <= length run)%nat \/ post <> [] \/ total run = 1) ->
      q_is cfg (fst r) v ((total pre + if Req_EM_T (total run) 1 then 0 else total run / 2) / size rs)) (exec (t_digest cfg) td_new ops).
Proof. exact @q_at_top. Qed.
Print Assumptions C68_quantile_at.

(** the remaining case, at the mean of the last centroid when it is heavier than 1 and shares its mean with no other: n - 1/2 *)
Theorem C68_quantile_last : forall cfg, lib_ok cfg -> forall ops rs, items_of ops = map XFin rs ->
  whenever (fun r => forall pre c, listed (fst r) (pre ++ [c]) -> pre <> [] -> Forall (fun d => fst d < fst c) pre -> snd c <> 1 ->
      q_is cfg (fst r) (fst c) ((size rs - 1 / 2) / size rs)) (exec (t_digest cfg) td_new ops).
Proof. exact @q_last_top. Qed.
Print Assumptions C68_quantile_last.

(** between neighbouring centroids: the straight line between the ranks of their centres, a single item being entirely at its place *)
Theorem C68_quantile_between : forall cfg, lib_ok cfg -> forall ops rs, items_of ops = map XFin rs ->
  whenever (fun r => forall pre c d post v, listed (fst r) (pre ++ c :: d :: post) -> fst c < v < fst d ->
      let a := total pre + (if Req_EM_T (snd c) 1 then 1 else snd c / 2) in
      let b := total pre + snd c + (if Req_EM_T (snd d) 1 then 0 else snd d / 2) in
      q_is cfg (fst r) v ((a + (b - a) * ((v - fst c) / (fst d - fst c))) / size rs)) (exec (t_digest cfg) td_new ops).
Proof. exact @q_between_top. Qed.
Print Assumptions C68_quantile_between.

(** outside the items, with a single centroid, and between the extremes and the outer centroids *)
Theorem C68_quantile_ends : forall cfg, lib_ok cfg -> forall ops rs, items_of ops = map XFin rs -> rs <> [] ->
  whenever (fun r => exists lo hi, leastR rs lo /\ mostR rs hi /\
      (forall v, v < lo -> q_is cfg (fst r) v 0) /\ (forall v, hi < v -> q_is cfg (fst r) v 1) /\
      (forall c, listed (fst r) [c] -> forall v, lo <= v <= hi -> q_is cfg (fst r) v (1 / 2)) /\
      (forall c d post, listed (fst r) (c :: d :: post) -> lo < fst c ->
         q_is cfg (fst r) lo (1 / 2 / size rs) /\
         forall v, lo < v < fst c -> q_is cfg (fst r) v ((1 + (snd c / 2 - 1) * ((v - lo) / (fst c - lo))) / size rs)) /\
      (forall pre c d, listed (fst r) (pre ++ [c; d]) -> fst d < hi ->
         q_is cfg (fst r) hi ((size rs - 1 / 2) / size rs) /\
         forall v, fst d < v < hi -> q_is cfg (fst r) v ((size rs - snd d / 2 + (snd d / 2 - 1) * ((v - fst d) / (hi - fst d))) / size rs)))
    (exec (t_digest cfg) td_new ops).
Proof. exact @q_ends_top. Qed.
Print Assumptions C68_quantile_ends.

(** value queries between the centres a and b of two neighbours: half a rank at either mean, a straight line in between *)
Theorem C68_value_between : forall cfg, lib_ok cfg -> forall ops rs, items_of ops = map XFin rs -> (Z.of_nat (length rs) < 2 ^ 64)%Z ->
  whenever (fun r => forall pre c d post q, listed (fst r) (pre ++ c :: d :: post) ->
      0 <= q <= 1 -> 1 <= size rs * q <= size rs - 1 -> let a := total pre + snd c / 2 in let b := total pre + snd c + snd d / 2 in
      (a <= size rs * q < a + 1 / 2 -> v_is cfg (fst r) q (fst c)) /\
      (b - 1 / 2 <= size rs * q < b -> v_is cfg (fst r) q (fst d)) /\
      (a + 1 / 2 <= size rs * q < b - 1 / 2 ->
         v_is cfg (fst r) q (fst c + (fst d - fst c) * ((size rs * q - (a + 1 / 2)) / (b - a - 1))))) (exec (t_digest cfg) td_new ops).
Proof. exact @v_between_top. Qed.
Print Assumptions C68_value_between.

(** value queries at the ends (the upper half of the last centroid is C20 and C21) *)
Theorem C68_value_ends : forall cfg, lib_ok cfg -> forall ops rs, items_of ops = map XFin rs -> (Z.of_nat (length rs) < 2 ^ 64)%Z -> rs <> [] ->
  whenever (fun r => exists lo hi, leastR rs lo /\ mostR rs hi /\
      (forall q, 0 <= q <= 1 -> size rs * q < 1 -> v_is cfg (fst r) q lo) /\
      (forall q, 0 <= q <= 1 -> 1 <= size rs * q -> size rs - 1 < size rs * q -> v_is cfg (fst r) q hi) /\
      (forall c d post q, listed (fst r) (c :: d :: post) -> 0 <= q <= 1 -> 1 <= size rs * q < snd c / 2 ->
         v_is cfg (fst r) q (lo + (fst c - lo) * ((size rs * q - 1) / (snd c / 2 - 1))))) (exec (t_digest cfg) td_new ops).
Proof. exact @v_low_top. Qed.
Print Assumptions C68_value_ends.

(** f64, centroids 2, 8, 9.5, 13.5 of weight 4: at 2, between 2 and 8, at 8, between the minimum 0 and 2, at the minimum and maximum, at 13.5; the
    values at ranks 4, 9/4 and 3/2 *)
Example C68_nonvacuous : gives (run64 8 [AddBuf (map w64 [0; 0; 0; 8; 8; 8; 8; 8; 8; 9; 10; 11; 12; 13; 14; 15]%Z);
    Quant (w64 2); Quant (w64 5); Quant (w64 8); Quant (w64 1); Quant (w64 0); Quant (w64 15); Quant (frat 27 2); Val (frat 1 4); Val (frat 9 64); Val (frat 3 32)])
  [frat 1 8; frat 1 4; frat 3 8; frat 3 32; frat 1 32; frat 31 32; frat 31 32; w64 5; w64 2; w64 1] = true.
Proof. vm_compute. reflexivity. Qed.

(* ------------------------------------------------------------------ *)
(** * C69: while no items are merged the answers are exact *)

(** [exact_ranks]: the quantile of v is the number of smaller items over n if at most one item equals v, and the middle of the ranks of its
    copies otherwise.  [exact_values]: the value at q is the item of rank floor(n q), the largest if there is none.
    The full claim includes a digest of one item, whose quantile is 1/2 (C69_one_item_refuted). *)
Theorem C69_single_centroids_partial : forall cfg, lib_ok cfg -> forall ops rs, items_of ops = map XFin rs ->
  whenever (fun r => (forall c, In c (t_centroids (fst r)) -> weight c = XFin 1) ->
      ((2 <= length rs)%nat -> exact_ranks cfg (fst r) rs) /\ (rs <> [] -> (Z.of_nat (length rs) < 2 ^ 64)%Z -> exact_values cfg (fst r) rs))
    (exec (t_digest cfg) td_new ops).
Proof. exact @single_top. Qed.
Print Assumptions C69_single_centroids_partial.
(** fewer than cf items with k0, fewer than 2 cf / pi with k1: nothing is merged *)
Theorem C69_k0_partial : forall cfg cf, 0 < cf -> with_scale cfg k0 inv_k0 cf -> forall ops rs, items_of ops = map XFin rs -> size rs < cf ->
  whenever (fun r => ((2 <= length rs)%nat -> exact_ranks cfg (fst r) rs) /\ (rs <> [] -> (Z.of_nat (length rs) < 2 ^ 64)%Z -> exact_values cfg (fst r) rs))
    (exec (t_digest cfg) td_new ops).
Proof. exact (fun cfg cf Hc HS ops rs Hi Hn => few_k0 Hc ops rs Hi HS Hn). Qed.
Print Assumptions C69_k0_partial.
Theorem C69_k1_partial : forall cfg cf, 0 < cf -> with_scale cfg k1 inv_k1 cf -> forall ops rs, items_of ops = map XFin rs -> PI / 2 * size rs < cf ->
  whenever (fun r => ((2 <= length rs)%nat -> exact_ranks cfg (fst r) rs) /\ (rs <> [] -> (Z.of_nat (length rs) < 2 ^ 64)%Z -> exact_values cfg (fst r) rs))
    (exec (t_digest cfg) td_new ops).
Proof. exact (fun cfg cf Hc HS ops rs Hi Hn => few_k1 Hc ops rs Hi HS Hn). Qed.
Print Assumptions C69_k1_partial.
(** one item: no item is below it, the answer is 1/2 *)
Theorem C69_one_item_refuted : gives (run64 8 [Add (w64 5); Quant (w64 5)]) [frat 1 2] = true.
Proof. vm_compute. reflexivity. Qed.
Print Assumptions C69_one_item_refuted.
(** f64: of 1, 3, 5 the quantile of 3 is 1/3; of 1, 3, 3, 5 it is the middle of 1 and 3; 5 and 4 have three smaller items; the values at ranks 2, 1, 1/2 *)
Example C69_nonvacuous : gives (run64 8 [Add (w64 5); AddBuf (map w64 [1; 3]%Z); Quant (w64 3); Add (w64 3); Quant (w64 3); Quant (w64 5); Quant (w64 4);
    Val (frat 1 2); Val (frat 1 4); Val (frat 1 8)])
  [frat 1 3; frat 1 2; frat 3 4; frat 3 4; w64 3; w64 3; w64 1] = true.
Proof. vm_compute. reflexivity. Qed.

(* ------------------------------------------------------------------ *)
(** * C70: no centroid grows beyond one step of the scale function *)

(** any scale function whose steps, with m items, are at most [lam m] wide, [lam] not decreasing *)
Theorem C70_cap : forall cfg k inv cf lam, with_scale cfg k inv cf -> (forall n, 1 <= n -> 0 <= lam n) -> (forall n n', 1 <= n -> n <= n' -> lam n <= lam n') ->
  (forall n, 1 <= n -> step_width k inv cf n (lam n)) -> forall ops rs, items_of ops = map XFin rs ->
  whenever (fun r => exists cs, listed (fst r) cs /\ forall c, In c cs -> snd c <= Rmax 1 (lam (size rs) * size rs)) (exec (t_digest cfg) td_new ops).
Proof. exact @td_lam. Qed.
Print Assumptions C70_cap.
Theorem C70_k0 : forall cfg cf, 0 < cf -> forall ops rs, items_of ops = map XFin rs -> with_scale cfg k0 inv_k0 cf ->
  whenever (fun r => exists cs, listed (fst r) cs /\ forall c, In c cs -> snd c <= Rmax 1 (2 / cf * size rs)) (exec (t_digest cfg) td_new ops).
Proof. exact @cap_k0. Qed.
Print Assumptions C70_k0.
Theorem C70_k1 : forall cfg cf, 0 < cf -> forall ops rs, items_of ops = map XFin rs -> with_scale cfg k1 inv_k1 cf ->
  whenever (fun r => exists cs, listed (fst r) cs /\ forall c, In c cs -> snd c <= Rmax 1 (PI / cf * size rs)) (exec (t_digest cfg) td_new ops).
Proof. exact @cap_k1. Qed.
Print Assumptions C70_k1.
(** [den a cf n] = 4 log10 (n / cf) + a, positive from n = 1 on *)
Theorem C70_k2 : forall cfg cf, 0 < cf -> forall ops rs, items_of ops = map XFin rs -> with_scale cfg k2 inv_k2 cf -> 0 < den 24 cf 1 ->
  whenever (fun r => exists cs, listed (fst r) cs /\ forall c, In c cs -> snd c <= Rmax 1 (ln 10 / 4 * (den 24 cf (size rs) / cf) * size rs)) (exec (t_digest cfg) td_new ops).
Proof. exact @cap_k2. Qed.
Print Assumptions C70_k2.
Theorem C70_k3 : forall cfg cf, 0 < cf -> forall ops rs, items_of ops = map XFin rs -> with_scale cfg k3 inv_k3 cf -> 0 < den 21 cf 1 ->
  whenever (fun r => exists cs, listed (fst r) cs /\ forall c, In c cs -> snd c <= Rmax 1 (ln 10 / 2 * (den 21 cf (size rs) / cf) * size rs)) (exec (t_digest cfg) td_new ops).
Proof. exact @cap_k3. Qed.
Print Assumptions C70_k3.
Theorem C70_k2_asym : forall cfg cf, 0 < cf -> forall ops rs, items_of ops = map XFin rs -> with_scale cfg k2_asym inv_k2_asym cf -> 0 < den 24 (cf * 2) 1 ->
  whenever (fun r => exists cs, listed (fst r) cs /\ forall c, In c cs -> snd c <= Rmax 1 (ln 10 / 4 * (den 24 (cf * 2) (size rs) / cf) * size rs)) (exec (t_digest cfg) td_new ops).
Proof. exact @cap_k2_asym. Qed.
Print Assumptions C70_k2_asym.
(** f64: the two batches of C67, 16 items, cf = 4: the weights are 8 = 2/4 * 16 *)
Example C70_nonvacuous : gives (flat (state64 4 [AddBuf (map w64 [0; 2; 4; 6; 8; 10; 12; 14]%Z); AddBuf (map w64 [5; 5; 1; 1; 1; 1; 9; 9]%Z)]))
  (map w64 [0; 14; 2; 8; 9; 8]%Z) = true.
Proof. exact C67_nonvacuous. Qed.
