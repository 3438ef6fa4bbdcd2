(** Properties C75 and C76: accuracy of a TDigest after any history, in exact arithmetic; the weight cap of k2n (C70). *)
From Coq Require Import List Arith ZArith Lia Bool Reals Lra.
From Verif Require Import Base Floats XReal IEEE Digest TDigest Spec FloatFacts TDigestExact TDigestTop ScaleFunctions ScaleProofs TDigestScale TDigestAcc TDigestAcc2 TDigestCap TDigestDrift P_Parallel P_TDigest P_TDigestAcc.
Set Implicit Arguments.
Local Open Scope R_scope.

(** [ops] is any history of additions and queries whose items are the reals [rs], n = [size rs]; [calls ops] counts its insertion calls.
    [q_answers], [v_answers], [within] as for C65 and C66: [within rs e t x] says below x rs - e <= t <= upto x rs + e.
    [many ops W] = calls ops * (W' - 1) + max 1 (W' / 2) with W' = max 1 W.
    [counts 0 ops]: how many items are held after each insertion call, ms = [m_1; m_2; ...].
    [heaviest lam 1 ms] = max (1, lam m_1 * m_1, lam m_2 * m_2, ...); [drift lam 1 ms] = the sum over i of max (1, lam m_1 * m_1, ..., lam m_i * m_i) - 1.
    [step_width k inv cf m w]: with m items one step of the scale function spans at most w. *)
Theorem C75_terms : forall lam ops m m' W,
  many ops W = INR (calls ops) * (Rmax 1 W - 1) + Rmax 1 (Rmax 1 W / 2) /\
  heaviest lam 1 [m; m'] = Rmax (Rmax 1 (lam (INR m) * INR m)) (lam (INR m') * INR m') /\
  drift lam 1 [m; m'] = (Rmax 1 (lam (INR m) * INR m) - 1) + (Rmax (Rmax 1 (lam (INR m) * INR m)) (lam (INR m') * INR m') - 1).
Proof. exact terms. Qed.
Print Assumptions C75_terms.

(* ------------------------------------------------------------------ *)
(** * C75: quantile queries *)
Theorem C75_any : forall cfg k inv cf lam, with_scale cfg k inv cf -> forall ops rs, items_of ops = map XFin rs -> rs <> [] ->
  (forall m, In m (counts 0 ops) -> (2 <= m)%nat -> step_width k inv cf (INR m) (lam (INR m))) ->
  whenever (fun r => q_answers (fst r) rs (within rs (drift lam 1 (counts 0 ops) + Rmax 1 (heaviest lam 1 (counts 0 ops) / 2)))) (exec (t_digest cfg) td_new ops).
Proof. exact (fun cfg k inv cf lam H ops rs Hi Hn Hs => ask_q _ _ _ (proj2_always _ _ _ (@td_drift cfg k inv cf lam H ops rs Hi Hn Hs))). Qed.
Print Assumptions C75_any.
Theorem C75_k0 : forall cfg cf ops rs, 0 < cf -> items_of ops = map XFin rs -> rs <> [] -> with_scale cfg k0 inv_k0 cf -> 
  whenever (fun r => q_answers (fst r) rs (within rs (many ops (2 / cf * size rs)))) (exec (t_digest cfg) td_new ops).
Proof. exact (fun cfg cf ops rs Hc Hi Hn Hw => ask_q _ _ _ (@drift_k0 cfg cf ops rs Hc Hi Hn Hw)). Qed.
Print Assumptions C75_k0.
Theorem C75_k1 : forall cfg cf ops rs, 0 < cf -> items_of ops = map XFin rs -> rs <> [] -> with_scale cfg k1 inv_k1 cf -> 
  whenever (fun r => q_answers (fst r) rs (within rs (many ops (PI / cf * size rs)))) (exec (t_digest cfg) td_new ops).
Proof. exact (fun cfg cf ops rs Hc Hi Hn Hw => ask_q _ _ _ (@drift_k1 cfg cf ops rs Hc Hi Hn Hw)). Qed.
Print Assumptions C75_k1.
Theorem C75_k2 : forall cfg cf ops rs, 0 < cf -> items_of ops = map XFin rs -> rs <> [] -> with_scale cfg k2 inv_k2 cf -> 0 < den 24 cf 1 -> 
  whenever (fun r => q_answers (fst r) rs (within rs (many ops (ln 10 / 4 * (den 24 cf (size rs) / cf) * size rs)))) (exec (t_digest cfg) td_new ops).
Proof. exact (fun cfg cf ops rs Hc Hi Hn Hw Hd => ask_q _ _ _ (@drift_k2 cfg cf ops rs Hc Hi Hn Hw Hd)). Qed.
Print Assumptions C75_k2.
Theorem C75_k3 : forall cfg cf ops rs, 0 < cf -> items_of ops = map XFin rs -> rs <> [] -> with_scale cfg k3 inv_k3 cf -> 0 < den 21 cf 1 -> 
  whenever (fun r => q_answers (fst r) rs (within rs (many ops (ln 10 / 2 * (den 21 cf (size rs) / cf) * size rs)))) (exec (t_digest cfg) td_new ops).
Proof. exact (fun cfg cf ops rs Hc Hi Hn Hw Hd => ask_q _ _ _ (@drift_k3 cfg cf ops rs Hc Hi Hn Hw Hd)). Qed.
Print Assumptions C75_k3.
Theorem C75_k2_asym : forall cfg cf ops rs, 0 < cf -> items_of ops = map XFin rs -> rs <> [] -> with_scale cfg k2_asym inv_k2_asym cf -> 0 < den 24 (cf * 2) 1 -> 
  whenever (fun r => q_answers (fst r) rs (within rs (many ops (ln 10 / 4 * (den 24 (cf * 2) (size rs) / cf) * size rs)))) (exec (t_digest cfg) td_new ops).
Proof. exact (fun cfg cf ops rs Hc Hi Hn Hw Hd => ask_q _ _ _ (@drift_k2_asym cfg cf ops rs Hc Hi Hn Hw Hd)). Qed.
Print Assumptions C75_k2_asym.
Theorem C75_k2n : forall cfg cf ops rs, items_of ops = map XFin rs -> rs <> [] -> with_scale cfg k2n inv_k2n cf ->
  (forall m, In m (counts 0 ops) -> (2 <= m)%nat -> 0 < cfn cf (INR m) /\ 0 < den 24 (cfn cf (INR m)) (INR m)) ->
  whenever (fun r => q_answers (fst r) rs (within rs (drift (k2n_lam cf) 1 (counts 0 ops) + Rmax 1 (heaviest (k2n_lam cf) 1 (counts 0 ops) / 2)))) (exec (t_digest cfg) td_new ops).
Proof. exact (fun cfg cf ops rs Hi Hn Hw H => ask_q _ _ _ (proj2_always _ _ _ (@drift_k2n cfg cf ops rs Hi Hn Hw H))). Qed.
Print Assumptions C75_k2n.

(** f64, k0 with cf = 40.  One hundred items from 1000 on, then eight batches, each of one item a little below 0 and several zeros: the
    weights stay at most 7 = floor (2/40 * 147), but of the 147 items only 8 are below -2^-39, and the answer times 147 exceeds
    8 + 3 * 7.4.  So a bound of 3 weights without the number of calls does not hold. *)
Definition dyadic (e : Z) : f64 := fdiv (fofZ (-1)) (fofZ (2 ^ e)).
Definition pull : list (op f64) :=
  AddBuf (map (fun i => w64 (1000 + Z.of_nat i)) (seq 0 100)) ::
  map (fun p => AddBuf (dyadic (fst p) :: repeat (w64 0) (snd p))) (combine (map (fun i => 5 * Z.of_nat i)%Z (seq 0 8)) [4; 4; 4; 5; 5; 5; 6; 6]%nat).
Theorem C75_calls_matter :
  length (items_of pull) = 147%nat /\ length (filter (fun x => fle x (dyadic 39)) (items_of pull)) = 8%nat /\
  (do s <- state64 40 pull; Ret (forallb (fun c => fle (weight c) (w64 7)) (t_centroids s))) = Ret true /\
  (do a <- run64 40 (pull ++ [Quant (dyadic 39)]); Ret (map (fun x => flt (fadd (w64 8) (fmul (w64 3) (fdiv (w64 74) (w64 10)))) (fmul (w64 147) x)) a)) = Ret [true].
Proof. vm_compute. auto. Qed.
Print Assumptions C75_calls_matter.

(** the two calls of C67, cf = 4 and sixteen items: W = 8, so the answers are within 2 * 7 + 4; at 11/2 the truth is 9 and the answer 8 *)
Example C75_nonvacuous : many [AddBuf (map XFin [0; 2; 4; 6; 8; 10; 12; 14]); Quant (XFin 5); AddBuf (map XFin [5; 5; 1; 1; 1; 1; 9; 9])] (2 / 4 * 16) = 18
  /\ gives (run64 4 [AddBuf (map w64 [0; 2; 4; 6; 8; 10; 12; 14]%Z); AddBuf (map w64 [5; 5; 1; 1; 1; 1; 9; 9]%Z); Quant (frat 11 2)]) [frat 1 2] = true.
Proof. split; [unfold many, calls; cbn [filter length INR]; unfold Rmax; repeat (destruct (Rle_dec _ _)); lra|vm_compute; reflexivity]. Qed.

(** * C70 for k2n: the cap is the largest reached so far *)
Theorem C70_k2n : forall cfg cf ops rs, items_of ops = map XFin rs -> rs <> [] -> with_scale cfg k2n inv_k2n cf ->
  (forall m, In m (counts 0 ops) -> (2 <= m)%nat -> 0 < cfn cf (INR m) /\ 0 < den 24 (cfn cf (INR m)) (INR m)) ->
  whenever (fun r => exists cs, listed (fst r) cs /\ forall c, In c cs -> snd c <= heaviest (k2n_lam cf) 1 (counts 0 ops)) (exec (t_digest cfg) td_new ops).
Proof. exact (fun cfg cf ops rs Hi Hn Hw H => proj1_always _ _ _ (@drift_k2n cfg cf ops rs Hi Hn Hw H)). Qed.
Print Assumptions C70_k2n.

(* ------------------------------------------------------------------ *)
(** * C76: value queries *)

(** Refuted without the exception for the last centroid, already for one call (see C66): rank 14, value 9, no item <= 9, and
    1 * 3 + 2 = 5. *)
Theorem C76_refuted : (do s <- state64 8 [AddBuf (repeat (w64 10) 16)]; Ret (forallb (fun c => feq (weight c) (w64 4)) (t_centroids s))) = Ret true
  /\ gives (run64 8 [AddBuf (repeat (w64 10) 16); Val (frat 7 8)]) [w64 9] = true.
Proof. exact C66_refuted. Qed.
Print Assumptions C76_refuted.

(** Missing: 1 <= n (1 - q) <= w/2 for a last centroid of weight w > 1 (refuted above), rounding. *)
Theorem C76_any_partial : forall cfg k inv cf lam, with_scale cfg k inv cf -> forall ops rs, items_of ops = map XFin rs -> rs <> [] ->
  (forall m, In m (counts 0 ops) -> (2 <= m)%nat -> step_width k inv cf (INR m) (lam (INR m))) ->
  whenever (fun r => v_answers (fst r) rs (within rs (drift lam 1 (counts 0 ops) + Rmax 1 (heaviest lam 1 (counts 0 ops) / 2)))) (exec (t_digest cfg) td_new ops).
Proof. exact (fun cfg k inv cf lam H ops rs Hi Hn Hs => ask_v _ _ _ (proj2_always _ _ _ (@td_drift cfg k inv cf lam H ops rs Hi Hn Hs))). Qed.
Print Assumptions C76_any_partial.
Theorem C76_k0_partial : forall cfg cf ops rs, 0 < cf -> items_of ops = map XFin rs -> rs <> [] -> with_scale cfg k0 inv_k0 cf -> 
  whenever (fun r => v_answers (fst r) rs (within rs (many ops (2 / cf * size rs)))) (exec (t_digest cfg) td_new ops).
Proof. exact (fun cfg cf ops rs Hc Hi Hn Hw => ask_v _ _ _ (@drift_k0 cfg cf ops rs Hc Hi Hn Hw)). Qed.
Print Assumptions C76_k0_partial.
Theorem C76_k1_partial : forall cfg cf ops rs, 0 < cf -> items_of ops = map XFin rs -> rs <> [] -> with_scale cfg k1 inv_k1 cf -> 
  whenever (fun r => v_answers (fst r) rs (within rs (many ops (PI / cf * size rs)))) (exec (t_digest cfg) td_new ops).
Proof. exact (fun cfg cf ops rs Hc Hi Hn Hw => ask_v _ _ _ (@drift_k1 cfg cf ops rs Hc Hi Hn Hw)). Qed.
Print Assumptions C76_k1_partial.
Theorem C76_k2_partial : forall cfg cf ops rs, 0 < cf -> items_of ops = map XFin rs -> rs <> [] -> with_scale cfg k2 inv_k2 cf -> 0 < den 24 cf 1 -> 
  whenever (fun r => v_answers (fst r) rs (within rs (many ops (ln 10 / 4 * (den 24 cf (size rs) / cf) * size rs)))) (exec (t_digest cfg) td_new ops).
Proof. exact (fun cfg cf ops rs Hc Hi Hn Hw Hd => ask_v _ _ _ (@drift_k2 cfg cf ops rs Hc Hi Hn Hw Hd)). Qed.
Print Assumptions C76_k2_partial.
Theorem C76_k3_partial : forall cfg cf ops rs, 0 < cf -> items_of ops = map XFin rs -> rs <> [] -> with_scale cfg k3 inv_k3 cf -> 0 < den 21 cf 1 -> 
  whenever (fun r => v_answers (fst r) rs (within rs (many ops (ln 10 / 2 * (den 21 cf (size rs) / cf) * size rs)))) (exec (t_digest cfg) td_new ops).
Proof. exact (fun cfg cf ops rs Hc Hi Hn Hw Hd => ask_v _ _ _ (@drift_k3 cfg cf ops rs Hc Hi Hn Hw Hd)). Qed.
Print Assumptions C76_k3_partial.
Theorem C76_k2_asym_partial : forall cfg cf ops rs, 0 < cf -> items_of ops = map XFin rs -> rs <> [] -> with_scale cfg k2_asym inv_k2_asym cf -> 0 < den 24 (cf * 2) 1 -> 
  whenever (fun r => v_answers (fst r) rs (within rs (many ops (ln 10 / 4 * (den 24 (cf * 2) (size rs) / cf) * size rs)))) (exec (t_digest cfg) td_new ops).
Proof. exact (fun cfg cf ops rs Hc Hi Hn Hw Hd => ask_v _ _ _ (@drift_k2_asym cfg cf ops rs Hc Hi Hn Hw Hd)). Qed.
Print Assumptions C76_k2_asym_partial.
Theorem C76_k2n_partial : forall cfg cf ops rs, items_of ops = map XFin rs -> rs <> [] -> with_scale cfg k2n inv_k2n cf ->
  (forall m, In m (counts 0 ops) -> (2 <= m)%nat -> 0 < cfn cf (INR m) /\ 0 < den 24 (cfn cf (INR m)) (INR m)) ->
  whenever (fun r => v_answers (fst r) rs (within rs (drift (k2n_lam cf) 1 (counts 0 ops) + Rmax 1 (heaviest (k2n_lam cf) 1 (counts 0 ops) / 2)))) (exec (t_digest cfg) td_new ops).
Proof. exact (fun cfg cf ops rs Hi Hn Hw H => ask_v _ _ _ (proj2_always _ _ _ (@drift_k2n cfg cf ops rs Hi Hn Hw H))). Qed.
Print Assumptions C76_k2n_partial.

(** f64: two batches, the value at rank 8 of 16 is 11/2, of rank 9 *)
Example C76_nonvacuous : gives (run64 4 [AddBuf (map w64 [0; 2; 4; 6; 8; 10; 12; 14]%Z); AddBuf (map w64 [5; 5; 1; 1; 1; 1; 9; 9]%Z); Val (frat 1 2)]) [frat 11 2] = true.
Proof. vm_compute. reflexivity. Qed.
