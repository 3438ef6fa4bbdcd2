(** Properties C85 and C86: SymDigest over two RCSketches, and RCSketch, RCSketch2 and ParTDigest inside the wrappers. *)
From Coq Require Import List Arith ZArith NArith Lia Bool Reals Lra.
From Verif Require Import Base Floats XReal IEEE Digest Spec FloatFacts History TDigest RCSketch RCProofs RCHist RCRank RCExpect RCTop RCQuery RCObs RCObs2 RCRelTop RCValue RCSym RCSymTop P_Parallel P_TDigest P_RC.
From Verif Require Import TDigestAcc TDigestAcc2 TDigestDrift Accurate ParallelProofs AccuratePar AccurateTop AccurateRC RC2 RC2Sections RC2Proofs RC2Hist RC2Rank RC2Top RC2Value AccurateRC2 ParTDrift AccuratePT P_RC2.
Set Implicit Arguments.
Set Universe Polymorphism.
Unset Universe Minimization ToSet.
Local Open Scope nat_scope.

(** [sym_rc_run lg n k ops]: [SymDigest::new(RCSketch::new(n, k), RCSketch::new(n, k))] and a history of calls;
    [sym_rc_allowed n]: at most n items, no NaN, queries only once there are items.
    An RCSketch is exact only at the low end (C43, C79); below, [bs] is its buffer size. *)

(* ------------------------------------------------------------------ *)
(** * C85 *)
Theorem C85_runs : forall F (FO : FloatOps F) (FL : FloatLaws F) lg n k, rc_params lg n k -> (N.of_nat (n / k) <= u32_max)%N -> Nat.even k = true ->
  (Z.of_nat n <= fint)%Z -> forall ops, ok_hist (sym_rc_allowed n) [] ops ->
  always (fun r => d_count (sym_digest rc_digest) (fst r) = Ret (Z.of_nat (length (items_of ops)))) (sym_rc_run lg n k ops).
Proof. exact @sym_rc_runs. Qed.
Print Assumptions C85_runs.
(** ranks below half a buffer from the low end, and from the high end: the answer is the item at that rank, whatever the coins *)
Theorem C85_value_low : forall F (FO : FloatOps F) (FL : FloatLaws F) lg n k, rc_params lg n k -> (N.of_nat (n / k) <= u32_max)%N -> Nat.even k = true ->
  (Z.of_nat n <= fint)%Z -> forall ops, ok_hist (sym_rc_allowed n) [] ops -> items_of ops <> [] -> forall bs, calc_buffer_size lg n k = Ret bs ->
  forall q r t, fval q = XFin r -> (0 <= r < 1/2)%R -> fval (fmul q (fofZ (Z.of_nat (length (items_of ops))))) = XFin t -> (t < INR (bs / 2))%R ->
  always (fun x => In x (items_of ops) /\ (INR (n_lt (items_of ops) x) <= t < INR (n_le (items_of ops) x))%R) (sym_rc_value lg n k ops q).
Proof. exact @symrc_value_low. Qed.
Print Assumptions C85_value_low.
Theorem C85_value_high : forall F (FO : FloatOps F) (FL : FloatLaws F) lg n k, rc_params lg n k -> (N.of_nat (n / k) <= u32_max)%N -> Nat.even k = true ->
  (Z.of_nat n <= fint)%Z -> forall ops, ok_hist (sym_rc_allowed n) [] ops -> items_of ops <> [] -> forall bs, calc_buffer_size lg n k = Ret bs ->
  forall q r t, fval q = XFin r -> (1/2 < r <= 1)%R -> fval (fmul (fsub f1 q) (fofZ (Z.of_nat (length (items_of ops))))) = XFin t -> (t < INR (bs / 2))%R ->
  always (fun x => (exists z, In z (items_of ops) /\ fval x = fval z) /\
            (INR (n_lt (items_of ops) x) < INR (length (items_of ops)) - t <= INR (n_le (items_of ops) x))%R) (sym_rc_value lg n k ops q).
Proof. exact @symrc_value_high. Qed.
Print Assumptions C85_value_high.
(** elsewhere, the bound of C79 *)
Theorem C85_value_worst : forall F (FO : FloatOps F) (FL : FloatLaws F) lg n k, rc_params lg n k -> (N.of_nat (n / k) <= u32_max)%N -> Nat.even k = true ->
  (Z.of_nat n <= fint)%Z -> forall ops, ok_hist (sym_rc_allowed n) [] ops -> items_of ops <> [] -> forall bs, calc_buffer_size lg n k = Ret bs ->
  forall q r h, fval q = XFin r -> (0 <= r <= 1)%R -> r <> (1/2)%R -> length (items_of ops) < bs * 2 ^ h ->
  exists t t', fval (fmul q (fofZ (Z.of_nat (length (items_of ops))))) = XFin t /\ fval (fmul (fsub f1 q) (fofZ (Z.of_nat (length (items_of ops))))) = XFin t' /\
    always (fun x => (exists z, In z (items_of ops) /\ fval x = fval z) /\
        let goal := (if Rlt_dec r (1/2) then t else INR (length (items_of ops)) - t')%R in
        (INR (n_lt (items_of ops) x) - INR (h * length (items_of ops)) / INR k <= goal
         <= INR (n_le (items_of ops) x) + INR (h * length (items_of ops)) / INR k)%R) (sym_rc_value lg n k ops q).
Proof. exact @symrc_value_worst. Qed.
Print Assumptions C85_value_worst.
(** quantile queries: the true quantile, rounded, for the lowest and the highest quarter of the items as far as half a buffer
    reaches; 4 h <= k keeps the other sketch on its side of the middle *)
Theorem C85_quantile_low : forall F (FO : FloatOps F) (FL : FloatLaws F) lg n k, rc_params lg n k -> (N.of_nat (n / k) <= u32_max)%N -> Nat.even k = true ->
  (Z.of_nat n <= fint)%Z -> forall ops, ok_hist (sym_rc_allowed n) [] ops -> items_of ops <> [] -> forall bs, calc_buffer_size lg n k = Ret bs ->
  (forall z, (0 <= z <= 16)%Z -> fexact (IZR z / 8)) ->
  forall v h, fisnan v = false -> length (items_of ops) < bs * 2 ^ h -> 4 * h <= k -> n_le (items_of ops) v <= bs / 2 -> 4 * n_le (items_of ops) v <= length (items_of ops) ->
  always (fun a => fval a = frnd (INR (n_le (items_of ops) v) / INR (length (items_of ops)))) (sym_rc_quantile lg n k ops v).
Proof. exact @symrc_quantile_low. Qed.
Print Assumptions C85_quantile_low.
Theorem C85_quantile_high : forall F (FO : FloatOps F) (FL : FloatLaws F) lg n k, rc_params lg n k -> (N.of_nat (n / k) <= u32_max)%N -> Nat.even k = true ->
  (Z.of_nat n <= fint)%Z -> forall ops, ok_hist (sym_rc_allowed n) [] ops -> items_of ops <> [] -> forall bs, calc_buffer_size lg n k = Ret bs ->
  (forall z, (0 <= z <= 16)%Z -> fexact (IZR z / 8)) ->
  forall v h, fisnan v = false -> length (items_of ops) < bs * 2 ^ h -> 4 * h <= k ->
  length (items_of ops) - n_lt (items_of ops) v <= bs / 2 -> 4 * (length (items_of ops) - n_lt (items_of ops) v) <= length (items_of ops) ->
  always (fun a => exists y, frnd (INR (length (items_of ops) - n_lt (items_of ops) v) / INR (length (items_of ops))) = XFin y /\ fval a = frnd (1 - y))
         (sym_rc_quantile lg n k ops v).
Proof. exact @symrc_quantile_high. Qed.
Print Assumptions C85_quantile_high.
(** the condition on eighths holds in exact arithmetic, f64 and f32 *)
Theorem C85_eighths : (forall B (HB : (4096 <= B)%Z) z, (0 <= z <= 16)%Z -> @fexact xr _ (xr_laws HB) (IZR z / 8)) /\
  (forall z, (0 <= z <= 16)%Z -> @fexact f64 _ f64_laws (IZR z / 8)) /\ (forall z, (0 <= z <= 16)%Z -> @fexact f32 _ f32_laws (IZR z / 8)).
Proof. exact (conj eighths_xr (conj eighths_64 eighths_32)). Qed.
Print Assumptions C85_eighths.

(** k = 4, n = 64: buffers of 32.  The items 1 to 40, queries at the eighths but 1/2: the SymDigest is exact whatever the coins; a
    single RCSketch answers 30 as 31 or 32 *)
Definition ops40 : list (op f64) := [AddBuf (map (fun i => w64 (Z.of_nat i)) (seq 1 40))].
Definition sym_values (qs : list nat) (coins : list bool) : list nat :=
  match run (do r <- sym_rc_run lg64 64 4 ops40; mapM (fun q => do o <- d_est_v (sym_digest rc_digest) (fst r) (frat (Z.of_nat q) 40); Ret (snd o)) qs) coins with
  | Returned l => map (n_le (items_of ops40)) l | _ => [] end.
Definition rc_values (qs : list nat) (coins : list bool) : list nat :=
  match run (do r <- rc_new lg64 64 4; do r <- exec rc_digest r ops40; mapM (fun q => do o <- d_est_v rc_digest (fst r) (frat (Z.of_nat q) 40); Ret (snd o)) qs) coins with
  | Returned l => map (n_le (items_of ops40)) l | _ => [] end.
Definition eighths : list nat := [0; 5; 10; 15; 25; 30; 35; 40].
Definition all_coins : list (list bool) := flat_map (fun a => flat_map (fun b => flat_map (fun c => map (fun d => [a; b; c; d]) [true; false]) [true; false]) [true; false]) [true; false].
Example C85_nonvacuous : rc_params lg64 64 4 /\ calc_buffer_size lg64 64 4 = Ret 32 /\ ok_hist (sym_rc_allowed 64) [] ops40 /\
  map (sym_values eighths) all_coins = repeat [1; 6; 11; 16; 25; 30; 35; 40] 16 /\
  rc_values eighths [true; true] = [1; 6; 11; 16; 26; 32; 36; 40] /\ rc_values eighths [false; false] = [1; 6; 11; 16; 25; 31; 35; 40].
Proof.
  split; [apply params64; try lia; vm_compute; reflexivity|]. split; [vm_compute; reflexivity|].
  split; [split; [|exact I]; split; [apply numbers_ok; vm_compute; reflexivity|apply Nat.leb_le; vm_compute; reflexivity]|].
  vm_compute. repeat split; reflexivity.
Qed.

(* ------------------------------------------------------------------ *)
(** * C86 *)
(** [rank_accurate], [value_accurate], [counted]: see C81.  [share a]: an error of [a] n ranks after n items.  Exact arithmetic. *)
Local Open Scope R_scope.
(** RCSketch: h / k of the items, where n < bs 2^h *)
Theorem C86_rc : forall (lg : xr -> xr) n k h bs s0, (1 <= k <= n)%nat -> lg (XFin (INR (n / k))) = XFin (INR (Nat.log2_up (n / k))) ->
  (Z.of_nat (2 * k * Nat.log2_up (n / k)) < 2 ^ 64)%Z -> (N.of_nat (n / k) <= u32_max)%N -> Nat.even k = true ->
  calc_buffer_size lg n k = Ret bs -> (n < bs * 2 ^ h)%nat -> rc_new lg n k = Ret s0 ->
  rank_accurate rc_digest s0 (Z.of_nat n) (share (INR h / INR k)) /\ value_accurate rc_digest s0 (Z.of_nat n) (share (INR h / INR k)) /\
  counted rc_digest s0 (Z.of_nat n).
Proof. exact rc_accurate. Qed.
Print Assumptions C86_rc.
(** RCSketch2: the share of C57, twice that for values *)
Theorem C86_rc2 : forall extra k n o h, k_ok k -> fewer k n -> (N.of_nat n <= N.of_nat (min_sec k) * u32_max)%N -> Nat.odd o = true -> (o <= min_sec k + 1)%nat ->
  ((o + 1) ^ h * n < 6 * N.to_nat k * (2 * o) ^ h)%nat ->
  let a := INR o * ((1 + / INR o) ^ (h + 1) - 1) / INR (min_sec k) in
  rank_accurate (rc2_digest extra) (rc2_new k) (Z.of_nat n) (share a) /\ value_accurate (rc2_digest extra) (rc2_new k) (Z.of_nat n) (share (2 * a)) /\
  counted (rc2_digest extra) (rc2_new k) (Z.of_nat n).
Proof. exact rc2_accurate. Qed.
Print Assumptions C86_rc2.
(** ParTDigest: the bound of C77 with at most n / (capacity + 1) + q + 1 deliveries *)
Theorem C86_deliveries : forall capacity (ops : list (op xr)), (deliveries capacity ops <= length (items_of ops) / (capacity + 1) + n_queries ops + 1)%nat.
Proof. exact deliveries_bound. Qed.
Print Assumptions C86_deliveries.
Theorem C86_part : forall cfg lam threads capacity lim, scaled cfg lam -> (1 <= threads)%nat -> (lim < 2 ^ 64)%Z ->
  rank_accurate (par_t_digest cfg threads capacity td_new) (pt_new td_new) lim
    (fun _ q n => INR (n / (capacity + 1) + q + 1) * (Rmax 1 (lam (INR n) * INR n) - 1) + chunk_loss lam threads * INR n
                  + Rmax 1 (Rmax 1 (lam (INR n) * INR n) / 2)) /\
  counted (par_t_digest cfg threads capacity td_new) (pt_new td_new) lim.
Proof. exact (fun cfg lam threads capacity lim HS Ht HL => conj (pt_rank capacity HS Ht HL) (pt_counted capacity HS Ht HL)). Qed.
Print Assumptions C86_part.

(** inside the wrappers the share stays the same; the members of a ParallelDigest may be any number *)
Theorem C86_buffered : forall (D : digest xr) (s0 : dst D) lim a c, (1 <= c)%nat ->
  (rank_accurate D s0 lim (share a) -> rank_accurate (buffered_digest D) (buffered_new D s0 c) lim (share a)) /\
  (value_accurate D s0 lim (share a) -> value_accurate (buffered_digest D) (buffered_new D s0 c) lim (share a)).
Proof. exact (fun D s0 lim a c Hc => conj (@buffered_share D s0 lim a c Hc) (@buffered_share_value D s0 lim a c Hc)). Qed.
Print Assumptions C86_buffered.
Theorem C86_sym : forall (D : digest xr) (s0 : dst D) lim a,
  (rank_accurate D s0 lim (share a) -> rank_accurate (sym_digest D) (Sym D s0 s0) lim (share a)) /\
  (value_accurate D s0 lim (share a) -> value_accurate (sym_digest D) (Sym D s0 s0) lim (share a)).
Proof. exact (fun D s0 lim a => conj (@sym_share D s0 lim a) (@sym_share_value D s0 lim a)). Qed.
Print Assumptions C86_sym.
Theorem C86_parallel : forall (D : digest xr) (s0 : dst D) lim a, 0 <= a -> forall m, (1 <= m)%nat -> (Z.of_nat m < 2 ^ 53)%Z -> (lim < 2 ^ 53)%Z ->
  rank_accurate D s0 lim (share a) -> counted D s0 lim ->
  forall sched ops rs, filled m ops -> fine ops -> items_of ops = map XFin rs -> (Z.of_nat (length rs) <= lim)%Z -> forall v,
  always (fun r => exists al x, snd r = al ++ [XFin x] /\ TDigestAcc2.within rs (a * size rs) (size rs * x) v)
    (exec (parallel_digest D) (parallel_new D sched (repeat s0 m)) (ops ++ [Quant (XFin v)])).
Proof. exact parallel_share. Qed.
Print Assumptions C86_parallel.
Theorem C86_parallel_value : forall (D : digest xr) (s0 : dst D) lim a, 0 <= a -> forall m, (1 <= m)%nat -> (Z.of_nat m < 2 ^ 53)%Z -> (lim < 2 ^ 53)%Z ->
  rank_accurate D s0 lim (share a) -> counted D s0 lim ->
  forall sched ops rs, filled m ops -> fine ops -> items_of ops = map XFin rs -> (Z.of_nat (length rs) <= lim)%Z -> forall q, 0 <= q <= 1 ->
  always (fun r => exists al x, snd r = al ++ [XFin x] /\ bracketed rs (a * size rs) q x)
    (exec (parallel_digest D) (parallel_new D sched (repeat s0 m)) (ops ++ [Val (XFin q)])).
Proof. exact parallel_share_value. Qed.
Print Assumptions C86_parallel_value.

(** an RCSketch with k = 4 for 64 items (bs = 32, so h = 2: half of the items at worst, and its parts) satisfies the conditions *)
Definition lgx (x : xr) : xr := XFin 4.
Example C86_nonvacuous : exists s0, rc_new lgx 64 4 = Ret s0 /\ rank_accurate rc_digest s0 64 (share (2 / 4)) /\ counted rc_digest s0 64 /\
  rank_accurate (sym_digest rc_digest) (Sym rc_digest s0 s0) 64 (share (2 / 4)) /\
  rank_accurate (buffered_digest rc_digest) (buffered_new rc_digest s0 8) 64 (share (2 / 4)).
Proof.
  assert (1 <= 4 <= 64)%nat as H1 by lia.
  assert (lgx (XFin (INR (64 / 4))) = XFin (INR (Nat.log2_up (64 / 4)))) as H2 by (change (XFin 4 = XFin (INR 4)); f_equal; cbn; lra).
  destruct (@rc_starts lgx 64 4 H1 H2 eq_refl) as [E (s0 & E0)]. exists s0. split; [exact E0|].
  destruct (@C86_rc lgx 64 4 2 (spec_size 64 4) s0 H1 H2 eq_refl ltac:(discriminate) eq_refl E ltac:(apply Nat.ltb_lt; vm_compute; reflexivity) E0) as (R1 & R2 & R3).
  replace (INR 2 / INR 4) with (2 / 4) in R1 by (cbn; lra). change (Z.of_nat 64) with 64%Z in *.
  split; [exact R1|]. split; [exact R3|]. split; [exact (proj1 (C86_sym rc_digest s0 64 (2 / 4)) R1)|].
  assert (1 <= 8)%nat as H8 by lia. exact (proj1 (@C86_buffered rc_digest s0 64 (2 / 4) 8 H8) R1).
Qed.
