(** Properties C65 and C66: accuracy of a TDigest filled by one [add_buffer], in exact arithmetic. *)
From Coq Require Import List Arith ZArith Lia Bool Reals Lra.
From Verif Require Import Base Floats XReal IEEE Digest TDigest Spec FloatFacts TDigestExact TDigestTop ScaleFunctions ScaleProofs TDigestScale TDigestAcc TDigestAcc2 P_Parallel P_TDigest.
Set Implicit Arguments.
Local Open Scope R_scope.

(** [below x l], [upto x l]: how many items of [l] are < x, <= x; [size l] how many there are.  [within l e t x]: the rank t fits the
    value x up to e, below x l - e <= t <= upto x l + e.  [low_ratio l r t x]: t <= r^2 upto x l + r + 1 and below x l <= r^2 t + r + 1;
    [high_ratio]: the same counted from the top.
    [built cfg l P]: adding the items [l] to an empty digest succeeds and leaves a digest s with centroids cs such that P s cs.
    [q_answers s l P]: every quantile query answers some a with P (n a) v; [v_answers s l P]: every value query at q in [0,1] answers
    some x with P (n q) x, except when the last centroid has weight w > 1 and 1 <= n (1 - q) <= w/2.
    [light l lam cs]: no centroid is heavier than max 1 (lam n).  [den a cf n] = 4 log10 (n / cf) + a, [cfn cf n] = cf/10 (log10 n)^2. *)

(* ------------------------------------------------------------------ *)
(** * C65: quantile queries *)

(** any scale function: off by at most 3/2 of the heaviest centroid *)
Theorem C65_weight : forall cfg l k inv cf, with_scale cfg k inv cf -> l <> [] ->
  built cfg l (fun s cs => forall W, (forall c, In c cs -> snd c <= W) -> q_answers s l (within l (3 / 2 * W))).
Proof. exact any_q. Qed.
Print Assumptions C65_weight.

(** the shipped scale functions, explicitly *)
Theorem C65_k0 : forall cfg cf l, 0 < cf -> l <> [] -> with_scale cfg k0 inv_k0 cf -> 
  built cfg l (fun s cs => light l (2 / cf) cs /\ q_answers s l (within l (3 / 2 * Rmax 1 (2 / cf * size l)))).
Proof. exact (fun cfg cf l Hc Hl Hw => abs_q (acc_k0 Hc Hl Hw)). Qed.
Print Assumptions C65_k0.
Theorem C65_k1 : forall cfg cf l, 0 < cf -> l <> [] -> with_scale cfg k1 inv_k1 cf -> 
  built cfg l (fun s cs => light l (PI / cf) cs /\ q_answers s l (within l (3 / 2 * Rmax 1 (PI / cf * size l)))).
Proof. exact (fun cfg cf l Hc Hl Hw => abs_q (acc_k1 Hc Hl Hw)). Qed.
Print Assumptions C65_k1.
Theorem C65_k2 : forall cfg cf l, 0 < cf -> l <> [] -> with_scale cfg k2 inv_k2 cf -> 0 < den 24 cf (size l) -> 
  built cfg l (fun s cs => light l (ln 10 / 4 * (den 24 cf (size l) / cf)) cs /\ q_answers s l (within l (3 / 2 * Rmax 1 (ln 10 / 4 * (den 24 cf (size l) / cf) * size l)))).
Proof. exact (fun cfg cf l Hc Hl Hw Hd => abs_q (acc_k2 Hc Hl Hw Hd)). Qed.
Print Assumptions C65_k2.
Theorem C65_k3 : forall cfg cf l, 0 < cf -> l <> [] -> with_scale cfg k3 inv_k3 cf -> 0 < den 21 cf (size l) -> 
  built cfg l (fun s cs => light l (ln 10 / 2 * (den 21 cf (size l) / cf)) cs /\ q_answers s l (within l (3 / 2 * Rmax 1 (ln 10 / 2 * (den 21 cf (size l) / cf) * size l)))).
Proof. exact (fun cfg cf l Hc Hl Hw Hd => abs_q (acc_k3 Hc Hl Hw Hd)). Qed.
Print Assumptions C65_k3.
Theorem C65_k2n : forall cfg cf l, l <> [] -> with_scale cfg k2n inv_k2n cf -> 0 < cfn cf (size l) -> 0 < den 24 (cfn cf (size l)) (size l) -> 
  built cfg l (fun s cs => light l (ln 10 / 4 * (den 24 (cfn cf (size l)) (size l) / cfn cf (size l))) cs /\ q_answers s l (within l (3 / 2 * Rmax 1 (ln 10 / 4 * (den 24 (cfn cf (size l)) (size l) / cfn cf (size l)) * size l)))).
Proof. exact (fun cfg cf l Hl Hw Hp Hd => abs_q (acc_k2n Hl Hw Hp Hd)). Qed.
Print Assumptions C65_k2n.
Theorem C65_k2_asym : forall cfg cf l, 0 < cf -> l <> [] -> with_scale cfg k2_asym inv_k2_asym cf -> 0 < den 24 (cf * 2) (size l) -> 
  built cfg l (fun s cs => light l (ln 10 / 4 * (den 24 (cf * 2) (size l) / cf)) cs /\ q_answers s l (within l (3 / 2 * Rmax 1 (ln 10 / 4 * (den 24 (cf * 2) (size l) / cf) * size l)))).
Proof. exact (fun cfg cf l Hc Hl Hw Hd => abs_q (acc_k2_asym Hc Hl Hw Hd)). Qed.
Print Assumptions C65_k2_asym.

(** relative to the rank, from below and from above *)
Theorem C65_k2_relative : forall cfg cf l, 0 < cf -> l <> [] -> with_scale cfg k2 inv_k2 cf -> 0 < den 24 cf (size l) -> 
  built cfg l (fun s _ => q_answers s l (low_ratio l (pow10 (den 24 cf (size l) / cf))) /\ q_answers s l (high_ratio l (pow10 (den 24 cf (size l) / cf)))).
Proof. exact (fun cfg cf l Hc Hl Hw Hd => rel_q (rel_k2 Hc Hl Hw Hd)). Qed.
Print Assumptions C65_k2_relative.
Theorem C65_k3_relative : forall cfg cf l, 0 < cf -> l <> [] -> with_scale cfg k3 inv_k3 cf -> 0 < den 21 cf (size l) -> 
  built cfg l (fun s _ => q_answers s l (low_ratio l (pow10 (den 21 cf (size l) / cf))) /\ q_answers s l (high_ratio l (pow10 (den 21 cf (size l) / cf)))).
Proof. exact (fun cfg cf l Hc Hl Hw Hd => rel_q (rel_k3 Hc Hl Hw Hd)). Qed.
Print Assumptions C65_k3_relative.
Theorem C65_k2n_relative : forall cfg cf l, l <> [] -> with_scale cfg k2n inv_k2n cf -> 0 < cfn cf (size l) -> 0 < den 24 (cfn cf (size l)) (size l) -> 
  built cfg l (fun s _ => q_answers s l (low_ratio l (pow10 (den 24 (cfn cf (size l)) (size l) / cfn cf (size l)))) /\ q_answers s l (high_ratio l (pow10 (den 24 (cfn cf (size l)) (size l) / cfn cf (size l))))).
Proof. exact (fun cfg cf l Hl Hw Hp Hd => rel_q (rel_k2n Hl Hw Hp Hd)). Qed.
Print Assumptions C65_k2n_relative.
Theorem C65_k2_asym_relative : forall cfg cf l, 0 < cf -> l <> [] -> with_scale cfg k2_asym inv_k2_asym cf -> 0 < den 24 (cf * 2) (size l) ->
  built cfg l (fun s _ => q_answers s l (low_ratio l (pow10 (den 24 (cf * 2) (size l) / (cf * 2))))).
Proof. exact (fun cfg cf l Hc Hl Hw Hd => low_q (rel_k2_asym Hc Hl Hw Hd)). Qed.
Print Assumptions C65_k2_asym_relative.

(** f64, k0 with cf = 8, sixteen items in one batch: four centroids of weight 4 = n 2/cf.  Three items are below 5, the answer times
    16 is 4; three are below 2, the answer times 16 is 2 *)
Example C65_nonvacuous : (do s <- state64 8 [AddBuf (map w64 [0; 0; 0; 8; 8; 8; 8; 8; 8; 9; 10; 11; 12; 13; 14; 15]%Z)]; Ret (length (t_centroids s))) = Ret 4%nat
  /\ gives (run64 8 [AddBuf (map w64 [0; 0; 0; 8; 8; 8; 8; 8; 8; 9; 10; 11; 12; 13; 14; 15]%Z); Quant (w64 5); Quant (w64 2)]) [frat 1 4; frat 1 8] = true.
Proof. vm_compute. auto. Qed.
(** the hypotheses of k2 are met by every n >= 1 with cf = 100 *)
Example C65_k2_applies : with_scale (plain k2 inv_k2 (XFin 100)) k2 inv_k2 100 /\ (forall n, 1 <= n -> 0 < den 24 100 n).
Proof.
  split; [split; [apply (@plain_ok _ _ (xr_laws (Z.le_refl 4096)))|auto]|]. intros n Hn. unfold den. rewrite log10_div by lra.
  assert (log10 100 = 2) as E. { replace 100 with (10 * 10) by lra. rewrite log10_mult, log10_10 by lra. lra. }
  rewrite E. assert (log10 1 <= log10 n) by (apply log10_le; lra). rewrite log10_1 in *. lra.
Qed.

(* ------------------------------------------------------------------ *)
(** * C66: value queries *)

(** Refuted without the exception for the last centroid: sixteen tens in centroids of weight 4; at q = 7/8 the answer is 9, which no
    item is below or equal to: rank 14 against upto = 0, and 3/2 * 4 = 6. *)
Theorem C66_refuted : (do s <- state64 8 [AddBuf (repeat (w64 10) 16)]; Ret (forallb (fun c => feq (weight c) (w64 4)) (t_centroids s))) = Ret true
  /\ gives (run64 8 [AddBuf (repeat (w64 10) 16); Val (frat 7 8)]) [w64 9] = true.
Proof. vm_compute. auto. Qed.
Print Assumptions C66_refuted.

(** Missing: 1 <= n (1 - q) <= w/2 for a last centroid of weight w > 1 (refuted above), several batches, rounding. *)
Theorem C66_weight_partial : forall cfg l k inv cf, with_scale cfg k inv cf -> l <> [] ->
  built cfg l (fun s cs => forall W, (forall c, In c cs -> snd c <= W) -> v_answers s l (within l (3 / 2 * W))).
Proof. exact any_v. Qed.
Print Assumptions C66_weight_partial.
Theorem C66_k0_partial : forall cfg cf l, 0 < cf -> l <> [] -> with_scale cfg k0 inv_k0 cf -> 
  built cfg l (fun s cs => light l (2 / cf) cs /\ v_answers s l (within l (3 / 2 * Rmax 1 (2 / cf * size l)))).
Proof. exact (fun cfg cf l Hc Hl Hw => abs_v (acc_k0 Hc Hl Hw)). Qed.
Print Assumptions C66_k0_partial.
Theorem C66_k1_partial : forall cfg cf l, 0 < cf -> l <> [] -> with_scale cfg k1 inv_k1 cf -> 
  built cfg l (fun s cs => light l (PI / cf) cs /\ v_answers s l (within l (3 / 2 * Rmax 1 (PI / cf * size l)))).
Proof. exact (fun cfg cf l Hc Hl Hw => abs_v (acc_k1 Hc Hl Hw)). Qed.
Print Assumptions C66_k1_partial.
Theorem C66_k2_partial : forall cfg cf l, 0 < cf -> l <> [] -> with_scale cfg k2 inv_k2 cf -> 0 < den 24 cf (size l) -> 
  built cfg l (fun s cs => light l (ln 10 / 4 * (den 24 cf (size l) / cf)) cs /\ v_answers s l (within l (3 / 2 * Rmax 1 (ln 10 / 4 * (den 24 cf (size l) / cf) * size l)))).
Proof. exact (fun cfg cf l Hc Hl Hw Hd => abs_v (acc_k2 Hc Hl Hw Hd)). Qed.
Print Assumptions C66_k2_partial.
Theorem C66_k3_partial : forall cfg cf l, 0 < cf -> l <> [] -> with_scale cfg k3 inv_k3 cf -> 0 < den 21 cf (size l) -> 
  built cfg l (fun s cs => light l (ln 10 / 2 * (den 21 cf (size l) / cf)) cs /\ v_answers s l (within l (3 / 2 * Rmax 1 (ln 10 / 2 * (den 21 cf (size l) / cf) * size l)))).
Proof. exact (fun cfg cf l Hc Hl Hw Hd => abs_v (acc_k3 Hc Hl Hw Hd)). Qed.
Print Assumptions C66_k3_partial.
Theorem C66_k2n_partial : forall cfg cf l, l <> [] -> with_scale cfg k2n inv_k2n cf -> 0 < cfn cf (size l) -> 0 < den 24 (cfn cf (size l)) (size l) -> 
  built cfg l (fun s cs => light l (ln 10 / 4 * (den 24 (cfn cf (size l)) (size l) / cfn cf (size l))) cs /\ v_answers s l (within l (3 / 2 * Rmax 1 (ln 10 / 4 * (den 24 (cfn cf (size l)) (size l) / cfn cf (size l)) * size l)))).
Proof. exact (fun cfg cf l Hl Hw Hp Hd => abs_v (acc_k2n Hl Hw Hp Hd)). Qed.
Print Assumptions C66_k2n_partial.
Theorem C66_k2_asym_partial : forall cfg cf l, 0 < cf -> l <> [] -> with_scale cfg k2_asym inv_k2_asym cf -> 0 < den 24 (cf * 2) (size l) -> 
  built cfg l (fun s cs => light l (ln 10 / 4 * (den 24 (cf * 2) (size l) / cf)) cs /\ v_answers s l (within l (3 / 2 * Rmax 1 (ln 10 / 4 * (den 24 (cf * 2) (size l) / cf) * size l)))).
Proof. exact (fun cfg cf l Hc Hl Hw Hd => abs_v (acc_k2_asym Hc Hl Hw Hd)). Qed.
Print Assumptions C66_k2_asym_partial.

(** relative to the rank, from below and from above *)
Theorem C66_k2_relative_partial : forall cfg cf l, 0 < cf -> l <> [] -> with_scale cfg k2 inv_k2 cf -> 0 < den 24 cf (size l) -> 
  built cfg l (fun s _ => v_answers s l (low_ratio l (pow10 (den 24 cf (size l) / cf))) /\ v_answers s l (high_ratio l (pow10 (den 24 cf (size l) / cf)))).
Proof. exact (fun cfg cf l Hc Hl Hw Hd => rel_v (rel_k2 Hc Hl Hw Hd)). Qed.
Print Assumptions C66_k2_relative_partial.
Theorem C66_k3_relative_partial : forall cfg cf l, 0 < cf -> l <> [] -> with_scale cfg k3 inv_k3 cf -> 0 < den 21 cf (size l) -> 
  built cfg l (fun s _ => v_answers s l (low_ratio l (pow10 (den 21 cf (size l) / cf))) /\ v_answers s l (high_ratio l (pow10 (den 21 cf (size l) / cf)))).
Proof. exact (fun cfg cf l Hc Hl Hw Hd => rel_v (rel_k3 Hc Hl Hw Hd)). Qed.
Print Assumptions C66_k3_relative_partial.
Theorem C66_k2n_relative_partial : forall cfg cf l, l <> [] -> with_scale cfg k2n inv_k2n cf -> 0 < cfn cf (size l) -> 0 < den 24 (cfn cf (size l)) (size l) -> 
  built cfg l (fun s _ => v_answers s l (low_ratio l (pow10 (den 24 (cfn cf (size l)) (size l) / cfn cf (size l)))) /\ v_answers s l (high_ratio l (pow10 (den 24 (cfn cf (size l)) (size l) / cfn cf (size l))))).
Proof. exact (fun cfg cf l Hl Hw Hp Hd => rel_v (rel_k2n Hl Hw Hp Hd)). Qed.
Print Assumptions C66_k2n_relative_partial.
Theorem C66_k2_asym_relative_partial : forall cfg cf l, 0 < cf -> l <> [] -> with_scale cfg k2_asym inv_k2_asym cf -> 0 < den 24 (cf * 2) (size l) ->
  built cfg l (fun s _ => v_answers s l (low_ratio l (pow10 (den 24 (cf * 2) (size l) / (cf * 2))))).
Proof. exact (fun cfg cf l Hc Hl Hw Hd => low_v (rel_k2_asym Hc Hl Hw Hd)). Qed.
Print Assumptions C66_k2_asym_relative_partial.

(** f64: the values at ranks 6 and 4 (between 8 and 8; the answers are 8 and 5) *)
Example C66_nonvacuous : gives (run64 8 [AddBuf (map w64 [0; 0; 0; 8; 8; 8; 8; 8; 8; 9; 10; 11; 12; 13; 14; 15]%Z); Val (frat 3 8); Val (frat 1 4)]) [w64 8; w64 5] = true.
Proof. vm_compute. auto. Qed.
