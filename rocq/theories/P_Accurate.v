(** Properties C81 to C84: the wrappers BufferedDigest, MultiDigest, SymDigest and ParallelDigest answer as accurately as the digests
    inside them.  Exact arithmetic; the examples are in f64. *)
From Coq Require Import List Arith ZArith Lia Bool Reals Lra.
From Verif Require Import Base Floats XReal IEEE Digest Spec FloatFacts TDigest TDigestTop ScaleFunctions ScaleProofs TDigestScale TDigestAcc TDigestAcc2 TDigestDrift Accurate ParallelProofs AccuratePar AccurateTop P_Parallel P_TDigest.
Set Implicit Arguments.
Set Universe Polymorphism.
Unset Universe Minimization ToSet.
Local Open Scope R_scope.

(** [rank_accurate D s0 lim e]: started in [s0] and given finite items, finite values, quantiles in [0,1] and no query before the
    first item, [D] runs without a panic up to [lim] items, and after c insertion calls, q queries and n items the quantile it answers
    for v, times n, lies between the number of items below v minus [e c q n] and the number up to v plus [e c q n].
    [value_accurate]: the same for the value answered at a quantile.  [within rs e t x] is #below x - e <= t <= #upto x + e. *)

(* ------------------------------------------------------------------ *)
(** * The digests inside *)
Theorem C81_linear : forall lim, (lim < 2 ^ 64)%Z -> rank_accurate (linear_digest xr) linear_new lim (fun _ _ _ => 0) /\
  value_accurate (linear_digest xr) linear_new lim (fun _ _ _ => / 2) /\ counted (linear_digest xr) linear_new lim.
Proof. exact (fun lim H => conj (linear_rank H) (conj (linear_value H) (@linear_counted lim))). Qed.
Print Assumptions C81_linear.
(** [scaled cfg lam]: one step of the scale function spans at most the fraction [lam n] of n items, as the library's do *)
Theorem C81_tdigest : forall cfg lam, scaled cfg lam -> forall lim, (lim < 2 ^ 64)%Z ->
  rank_accurate (t_digest cfg) td_new lim (fun c _ n => t_error lam c n) /\ counted (t_digest cfg) td_new lim.
Proof. exact (fun cfg lam HS lim H => conj (t_rank HS H) (t_counted HS H)). Qed.
Print Assumptions C81_tdigest.
Theorem C81_scales : forall cfg cf, 0 < cf ->
  (with_scale cfg k0 inv_k0 cf -> scaled cfg (fun _ => 2 / cf)) /\ (with_scale cfg k1 inv_k1 cf -> scaled cfg (fun _ => PI / cf)) /\
  (with_scale cfg k2 inv_k2 cf -> 0 < den 24 cf 1 -> scaled cfg (fun n => ln 10 / 4 * (den 24 cf n / cf))) /\
  (with_scale cfg k3 inv_k3 cf -> 0 < den 21 cf 1 -> scaled cfg (fun n => ln 10 / 2 * (den 21 cf n / cf))) /\
  (with_scale cfg k2_asym inv_k2_asym cf -> 0 < den 24 (cf * 2) 1 -> scaled cfg (fun n => ln 10 / 4 * (den 24 (cf * 2) n / cf))).
Proof. exact (fun cfg cf H => conj (@scaled_k0 cfg cf H) (conj (@scaled_k1 cfg cf H) (conj (@scaled_k2 cfg cf H) (conj (@scaled_k3 cfg cf H) (@scaled_k2_asym cfg cf H))))). Qed.
Print Assumptions C81_scales.

(* ------------------------------------------------------------------ *)
(** * C81: BufferedDigest *)
(** the bound of the digest inside, for the insertions the buffer makes: at most n / (c + 1) + q + 1 *)
Theorem C81_rank : forall (D : digest xr) (d : dst D) c lim e, (1 <= c)%nat -> rank_accurate D d lim e -> grows e ->
  rank_accurate (buffered_digest D) (buffered_new D d c) lim (fun _ q n => e (n / (c + 1) + q + 1)%nat q n).
Proof. exact (fun D d c lim e Hc H Hg => @buffered_rank D d c lim e Hc H Hg). Qed.
Print Assumptions C81_rank.
Theorem C81_value : forall (D : digest xr) (d : dst D) c lim e, (1 <= c)%nat -> grows e -> value_accurate D d lim e ->
  value_accurate (buffered_digest D) (buffered_new D d c) lim (fun _ q n => e (n / (c + 1) + q + 1)%nat q n).
Proof. exact (fun D d c lim e Hc Hg H => @buffered_value D d c lim e Hc Hg H). Qed.
Print Assumptions C81_value.
Theorem C81_buffered_tdigest : forall cfg lam lim, scaled cfg lam -> (lim < 2 ^ 64)%Z -> forall c, (1 <= c)%nat ->
  rank_accurate (buffered_digest (t_digest cfg)) (buffered_new (t_digest cfg) td_new c) lim (fun _ q n => t_error lam (n / (c + 1) + q + 1) n).
Proof. exact buffered_t_rank. Qed.
Print Assumptions C81_buffered_tdigest.

(** the items of C75, one by one: the plain TDigest takes 16 insertions, the buffered one three *)
Definition some16 : list Z := [0; 2; 4; 6; 8; 10; 12; 14; 5; 5; 1; 1; 1; 1; 9; 9]%Z.
Definition buf64 (cf : Z) (c : nat) (ops : list (op f64)) : M (list f64) :=
  do (s, a) <- exec (buffered_digest (lin cf)) (buffered_new (lin cf) td_new c) ops; Ret a.
Example C81_nonvacuous : gives (buf64 8 7 (map (fun z => Digest.Add (w64 z)) some16 ++ [Quant (frat 11 2); Val (frat 1 2)])) [frat 17 32; w64 5] = true.
Proof. vm_compute. reflexivity. Qed.
Example C81_fine : fine (map (fun z => Digest.Add (XFin (IZR z))) some16 ++ [Quant (XFin (11 / 2)); Val (XFin (/ 2))]).
Proof.
  split.
  - apply Forall_app. split; [apply Forall_forall; intros o Ho; apply in_map_iff in Ho as (z & <- & _); now exists (IZR z)|].
    constructor; [now exists (11 / 2)|]. constructor; [|constructor]. exists (/ 2). split; [reflexivity|lra].
  - cbn. repeat constructor; discriminate.
Qed.

(* ------------------------------------------------------------------ *)
(** * C82: MultiDigest and SymDigest *)
(** quantiles: the mean of the members' errors; members may differ *)
Theorem C82_multi_rank : forall (ds : list (boxed xr)) lim, ds <> [] -> forall es,
  Forall2 (fun b e => rank_accurate (bx_impl b) (bx_state b) lim e) ds es ->
  rank_accurate (multi_digest xr) ds lim (fun c q n => sumR (map (fun e => e c q n) es) / size es).
Proof. exact multi_rank. Qed.
Print Assumptions C82_multi_rank.
Theorem C82_multi_value : forall (ds : list (boxed xr)) lim, ds <> [] -> forall e,
  Forall (fun b => value_accurate (bx_impl b) (bx_state b) lim e) ds -> value_accurate (multi_digest xr) ds lim e.
Proof. exact multi_value. Qed.
Print Assumptions C82_multi_value.
Theorem C82_sym_rank : forall (D : digest xr) (l0 h0 : dst D) lim e, rank_accurate D l0 lim e -> rank_accurate D h0 lim e ->
  rank_accurate (sym_digest D) (Sym D l0 h0) lim e.
Proof. exact (fun D l0 h0 lim e H1 H2 => sym_rank H1 H2). Qed.
Print Assumptions C82_sym_rank.
Theorem C82_sym_value : forall (D : digest xr) (l0 h0 : dst D) lim e, value_accurate D l0 lim e -> value_accurate D h0 lim e ->
  value_accurate (sym_digest D) (Sym D l0 h0) lim e.
Proof. exact (fun D l0 h0 lim e H1 H2 => sym_value H1 H2). Qed.
Print Assumptions C82_sym_value.
(** TDigests with any configurations; a SymDigest of TDigests *)
Theorem C82_multi_tdigest : forall (ds : list (boxed xr)) lams lim, ds <> [] -> Forall2 fresh_t ds lams -> (lim < 2 ^ 64)%Z ->
  rank_accurate (multi_digest xr) ds lim (mean_error (map (fun lam c _ n => t_error lam c n) lams)).
Proof. exact multi_t_rank. Qed.
Print Assumptions C82_multi_tdigest.
Theorem C82_sym_tdigest : forall cfg lam lim, scaled cfg lam -> (lim < 2 ^ 64)%Z ->
  rank_accurate (sym_digest (t_digest cfg)) (Sym (t_digest cfg) td_new td_new) lim (fun c _ n => t_error lam c n).
Proof. exact sym_t_rank. Qed.
Print Assumptions C82_sym_tdigest.
Theorem C82_sym_linear : forall lim, (lim < 2 ^ 64)%Z ->
  rank_accurate (sym_digest (linear_digest xr)) (Sym (linear_digest xr) linear_new linear_new) lim (fun _ _ _ => 0) /\
  value_accurate (sym_digest (linear_digest xr)) (Sym (linear_digest xr) linear_new linear_new) lim (fun _ _ _ => / 2).
Proof. exact sym_linear. Qed.
Print Assumptions C82_sym_linear.
Definition multi64 (cfs : list Z) (ops : list (op f64)) : M (list f64) :=
  do (s, a) <- exec (multi_digest f64) (map (fun cf => @Box f64 (lin cf) td_new) cfs) ops; Ret a.
Definition sym64 (cf : Z) (ops : list (op f64)) : M (list f64) :=
  do (s, a) <- exec (sym_digest (lin cf)) (Sym (lin cf) td_new td_new) ops; Ret a.
(** at 11/2 the truth is 9/16; the two members of the MultiDigest answer 1/2 and 17/32 *)
Example C82_nonvacuous : gives (multi64 [4; 8]%Z [AddBuf (map w64 some16); Quant (frat 11 2); Val (frat 1 2)]) [frat 33 64; frat 21 4] = true /\
  gives (sym64 8 [AddBuf (map w64 some16); Quant (frat 11 2); Val (frat 1 2)]) [frat 17 32; w64 5] = true.
Proof. vm_compute. split; reflexivity. Qed.
(** the hypotheses are satisfiable: two TDigests of different compression *)
Example C82_members : forall cfg4 cfg8, with_scale cfg4 k0 inv_k0 4 -> with_scale cfg8 k0 inv_k0 8 ->
  Forall2 fresh_t [@Box xr (t_digest cfg4) td_new; @Box xr (t_digest cfg8) td_new] [fun _ => 2 / 4; fun _ => 2 / 8].
Proof. intros cfg4 cfg8 H4 H8. repeat constructor; apply scaled_k0; auto; lra. Qed.

(* ------------------------------------------------------------------ *)
(** * C83: quantile queries of ParallelDigest *)
(** Any schedule.  [filled m ops]: the first call is a buffer of j m items, j >= 1, and no buffer is empty, so that every member holds
    items (C10: an empty member panics or spoils the answer).  The members' errors add up: E bounds their sum. *)
Theorem C83_members : forall (D : digest xr) lim (e E : nat -> nat -> R) (ds : list (dst D)), (lim < 2 ^ 53)%Z -> ds <> [] -> (Z.of_nat (length ds) < 2 ^ 53)%Z ->
  Forall (fun d => rank_accurate D d lim (fun c _ n => e c n) /\ counted D d lim) ds ->
  (forall c c' n, (c <= c')%nat -> e c n <= e c' n) -> (forall c n, 0 <= e c n) ->
  (forall c ns, length ns = length ds -> Forall (fun n => (1 <= n)%nat) ns -> sumR (map (e c) ns) <= E c (sum_nat ns)) ->
  forall sched ops rs v, filled (length ds) ops -> fine ops -> items_of ops = map XFin rs -> (Z.of_nat (length rs) <= lim)%Z ->
  always (fun r => exists al a, snd r = al ++ [XFin a] /\ within rs (E (calls ops) (length rs)) (size rs * a) v)
    (exec (parallel_digest D) (parallel_new D sched ds) (ops ++ [Quant (XFin v)])).
Proof. exact parallel_rank. Qed.
Print Assumptions C83_members.
Theorem C83_linear : forall lim, (lim < 2 ^ 64)%Z -> forall m, (1 <= m)%nat -> (Z.of_nat m < 2 ^ 53)%Z -> (lim < 2 ^ 53)%Z ->
  forall sched ops rs, filled m ops -> fine ops -> items_of ops = map XFin rs -> (Z.of_nat (length rs) <= lim)%Z -> forall v,
  always (fun r => exists al a, snd r = al ++ [XFin a] /\ within rs 0 (size rs * a) v)
    (exec (parallel_digest (linear_digest xr)) (parallel_new (linear_digest xr) sched (repeat linear_new m)) (ops ++ [Quant (XFin v)])).
Proof. exact (fun lim HL m H1 H2 H3 sched ops rs F1 F2 F3 F4 => proj1 (@parallel_linear lim HL m H1 H2 H3 sched ops rs F1 F2 F3 F4)). Qed.
Print Assumptions C83_linear.
(** m TDigests, c insertion calls, n items: m + (c + 1/2) lam(n) n ranks *)
Theorem C83_tdigest : forall cfg lam lim, scaled cfg lam -> (lim < 2 ^ 64)%Z -> forall m, (1 <= m)%nat -> (Z.of_nat m < 2 ^ 53)%Z -> (lim < 2 ^ 53)%Z ->
  forall sched ops rs v, filled m ops -> fine ops -> items_of ops = map XFin rs -> (Z.of_nat (length rs) <= lim)%Z ->
  always (fun r => exists al a, snd r = al ++ [XFin a] /\
            within rs (INR m + (INR (calls ops) + / 2) * (lam (size rs) * size rs)) (size rs * a) v)
    (exec (parallel_digest (t_digest cfg)) (parallel_new (t_digest cfg) sched (repeat td_new m)) (ops ++ [Quant (XFin v)])).
Proof. exact parallel_t_rank. Qed.
Print Assumptions C83_tdigest.
Definition parallel64 (cf : Z) (m : nat) (ops : list (op f64)) : M (list f64) :=
  do (s, a) <- exec (parallel_digest (lin cf)) (parallel_new (lin cf) (fun _ => RNode 1 RLeaf RLeaf) (repeat td_new m)) ops; Ret a.
Example C83_nonvacuous : gives (parallel64 8 2 [AddBuf (map w64 some16); Quant (frat 11 2)]) [frat 17 32] = true /\
  gives (parallel64 8 4 [AddBuf (map w64 some16); Quant (frat 11 2)]) [frat 9 16] = true.
Proof. vm_compute. split; reflexivity. Qed.
Example C83_fine : filled 4 [AddBuf (map (fun z => XFin (IZR z)) some16)] /\ fine [AddBuf (map (fun z => XFin (IZR z)) some16)].
Proof.
  split; [exists (map (fun z => XFin (IZR z)) some16), 4%nat, []; repeat split; try constructor; lia|].
  split; [|constructor]. constructor; [|constructor]. apply Forall_forall. intros o Ho. apply in_map_iff in Ho as (z & <- & _). now exists (IZR z).
Qed.

(* ------------------------------------------------------------------ *)
(** * C84: value queries of ParallelDigest *)
(** [bracketed rs err q x]: the answer x and some a <= x lie between the least item mn and the greatest mx, at most 10^-6 (|mn| + |mx|)
    apart, and #below a - err <= n q <= #upto x + err.  Only the members' quantile queries are used: value queries of TDigest can be
    wrong (C76), those of a ParallelDigest of TDigests are not. *)
Theorem C84_members : forall (D : digest xr) lim (e E : nat -> nat -> R) (ds : list (dst D)), (lim < 2 ^ 53)%Z -> ds <> [] -> (Z.of_nat (length ds) < 2 ^ 53)%Z ->
  Forall (fun d => rank_accurate D d lim (fun c _ n => e c n) /\ counted D d lim) ds ->
  (forall c c' n, (c <= c')%nat -> e c n <= e c' n) -> (forall c n, 0 <= e c n) ->
  (forall c ns, length ns = length ds -> Forall (fun n => (1 <= n)%nat) ns -> sumR (map (e c) ns) <= E c (sum_nat ns)) ->
  forall sched ops rs q, filled (length ds) ops -> fine ops -> items_of ops = map XFin rs -> (Z.of_nat (length rs) <= lim)%Z -> 0 <= q <= 1 ->
  always (fun r => exists al x, snd r = al ++ [XFin x] /\ bracketed rs (E (calls ops) (length rs)) q x)
    (exec (parallel_digest D) (parallel_new D sched ds) (ops ++ [Val (XFin q)])).
Proof. exact parallel_value. Qed.
Print Assumptions C84_members.
Theorem C84_linear : forall lim, (lim < 2 ^ 64)%Z -> forall m, (1 <= m)%nat -> (Z.of_nat m < 2 ^ 53)%Z -> (lim < 2 ^ 53)%Z ->
  forall sched ops rs, filled m ops -> fine ops -> items_of ops = map XFin rs -> (Z.of_nat (length rs) <= lim)%Z -> forall q, 0 <= q <= 1 ->
  always (fun r => exists al x, snd r = al ++ [XFin x] /\ bracketed rs 0 q x)
    (exec (parallel_digest (linear_digest xr)) (parallel_new (linear_digest xr) sched (repeat linear_new m)) (ops ++ [Val (XFin q)])).
Proof. exact (fun lim HL m H1 H2 H3 sched ops rs F1 F2 F3 F4 => proj2 (@parallel_linear lim HL m H1 H2 H3 sched ops rs F1 F2 F3 F4)). Qed.
Print Assumptions C84_linear.
Theorem C84_tdigest : forall cfg lam lim, scaled cfg lam -> (lim < 2 ^ 64)%Z -> forall m, (1 <= m)%nat -> (Z.of_nat m < 2 ^ 53)%Z -> (lim < 2 ^ 53)%Z ->
  forall sched ops rs q, filled m ops -> fine ops -> items_of ops = map XFin rs -> (Z.of_nat (length rs) <= lim)%Z -> 0 <= q <= 1 ->
  always (fun r => exists al x, snd r = al ++ [XFin x] /\ bracketed rs (INR m + (INR (calls ops) + / 2) * (lam (size rs) * size rs)) q x)
    (exec (parallel_digest (t_digest cfg)) (parallel_new (t_digest cfg) sched (repeat td_new m)) (ops ++ [Val (XFin q)])).
Proof. exact parallel_t_value. Qed.
Print Assumptions C84_tdigest.
(** sixteen equal items: TDigest answers 9 at 7/8, a ParallelDigest of two TDigests, or of one, answers 10 *)
Example C84_nonvacuous : gives (run64 8 [AddBuf (repeat (w64 10) 16); Val (frat 7 8)]) [w64 9] = true /\
  gives (parallel64 8 1 [AddBuf (repeat (w64 10) 16); Val (frat 7 8)]) [w64 10] = true /\
  gives (parallel64 8 2 [AddBuf (repeat (w64 10) 16); Val (frat 7 8)]) [w64 10] = true.
Proof. vm_compute. repeat split; reflexivity. Qed.
