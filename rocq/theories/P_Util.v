(** Properties C52-C55 and C61-C63: the utilities, centroid addition and [owned_size]. *)
From Coq Require Import List Arith ZArith NArith Lia Bool Reals Lra.
From Flocq Require Import Core BinarySingleNaN.
From Verif Require Import Base Floats XReal IEEE Digest Spec FloatFacts TDigest Util UtilProofs P_Parallel P_TDigest.
Set Implicit Arguments.
Local Open Scope nat_scope.

(* ------------------------------------------------------------------ *)
(** * C52 *)
Theorem C52_between : forall F (FO : FloatOps F) (FL : FloatLaws F) (x1 w1 x2 w2 : F), fisnan x1 = false -> fisnan x2 = false ->
  let r := weighted_average x1 w1 x2 w2 in
  (fle x1 r = true /\ fle r x2 = true) \/ (fle x2 r = true /\ fle r x1 = true).
Proof. exact @weighted_average_between. Qed.
Print Assumptions C52_between.
(** f64: an ordinary average, opposite weights, NaN and infinite weights, infinite values *)
Example C52_nonvacuous :
  all_same [weighted_average (w64 1) (w64 3) (w64 5) (w64 1); weighted_average (w64 1) (w64 3) (w64 5) (w64 (-3));
            weighted_average (w64 1) fnan (w64 5) (w64 1); weighted_average (w64 1) fpinf (w64 5) fpinf;
            weighted_average fninf (w64 1) fpinf (w64 1); weighted_average (w64 1) (w64 (-5)) (w64 5) (w64 1)]
           [w64 2; w64 1; w64 5; w64 5; fpinf; w64 1] = true.
Proof. vm_compute. reflexivity. Qed.

(* ------------------------------------------------------------------ *)
(** * C53 *)
(** The result, whatever the tests do: [opt_result] says that it passed, or is the untested [max_param] after failures only; and
    that it is within epsilon (as computed) of a parameter that failed, or of 0 after successes only.
    The full claim, that it always passed and that the search terminates for epsilon > 0, is refuted below. *)
Theorem C53_result_partial : forall F (FO : FloatOps F) trial tc ratio (max_param epsilon : F) fuel,
  whenever (fun h => exists ps : list F, ps <> [] /\
      (forall i p, nth_error ps i = Some p -> passed trial tc ratio i p \/ failed trial tc ratio i p) /\
      ((exists i, nth_error ps i = Some h /\ passed trial tc ratio i h) \/
       (h = max_param /\ forall i p, nth_error ps i = Some p -> failed trial tc ratio i p)) /\
      (exists l, flt (fsub h l) epsilon = true /\
         ((exists i, nth_error ps i = Some l /\ failed trial tc ratio i l) \/
          (l = f0 /\ forall i p, nth_error ps i = Some p -> passed trial tc ratio i p))))
    (opt_accuracy_parameter trial tc ratio max_param epsilon fuel).
Proof. exact @opt_result_ok. Qed.
Print Assumptions C53_result_partial.
(** exact arithmetic: it terminates for every positive epsilon, in about log2 (max_param / epsilon) iterations *)
Theorem C53_terminates_exact_partial : forall (trial : nat -> nat -> xr -> option bool) tc ratio m e fuel,
  (forall i p, completed trial tc i p) -> (0 <= m)%R -> (0 < e)%R -> 1 <= fuel -> (m < 2 ^ fuel * e)%R ->
  always (fun _ => True) (opt_accuracy_parameter trial tc ratio (XFin m) (XFin e) fuel).
Proof. exact opt_terminates_exact. Qed.
Print Assumptions C53_terminates_exact_partial.
(** IEEE: in 53 iterations for f64 (24 for f32) if epsilon is at least 2^-49 (2^-20) of [max_param] *)
Theorem C53_terminates_f64_partial : forall (trial : nat -> nat -> f64 -> option bool) tc ratio (mx eps : f64) m e,
  (forall i p, completed trial tc i p) -> fval mx = XFin m -> fval eps = XFin e ->
  (bpow radix2 (-1022) <= m <= bpow radix2 1022)%R -> (m * bpow radix2 (-49) <= e)%R ->
  always (fun _ => True) (opt_accuracy_parameter trial tc ratio mx eps 53).
Proof. exact (@opt_terminates_ieee 53 1024 _). Qed.
Print Assumptions C53_terminates_f64_partial.
Theorem C53_terminates_f32_partial : forall (trial : nat -> nat -> f32 -> option bool) tc ratio (mx eps : f32) m e,
  (forall i p, completed trial tc i p) -> fval mx = XFin m -> fval eps = XFin e ->
  (bpow radix2 (-126) <= m <= bpow radix2 126)%R -> (m * bpow radix2 (-20) <= e)%R ->
  always (fun _ => True) (opt_accuracy_parameter trial tc ratio mx eps 24).
Proof. exact (@opt_terminates_ieee 24 128 _). Qed.
Print Assumptions C53_terminates_f32_partial.
(** a test passed exactly from [t] on, in exact arithmetic: the result is at least [t], by less than epsilon *)
Theorem C53_threshold : forall tc ratio rho, (0 < Z.of_nat tc < 2 ^ 32)%Z -> fval ratio = XFin rho -> (0 < rho <= 1)%R ->
  forall m e t fuel, (0 <= t <= m)%R -> (0 < e)%R -> 1 <= fuel -> (m < 2 ^ fuel * e)%R ->
  always (fun h => exists r, h = XFin r /\ (t <= r < t + e)%R)
    (opt_accuracy_parameter (fun _ _ p => Some (fle (XFin t) p)) tc ratio (XFin m) (XFin e) fuel).
Proof. exact opt_threshold. Qed.
Print Assumptions C53_threshold.
(** "high is always guaranteed to have passed the test" is false: if every test fails (for instance because there are none), the
    result is [max_param], which is never tested *)
Theorem C53_all_fail : forall F (FO : FloatOps F) trial tc ratio (max_param epsilon : F) fuel,
  (forall i p, verdict trial tc ratio i p = false) ->
  whenever (fun h => h = max_param) (opt_accuracy_parameter trial tc ratio max_param epsilon fuel).
Proof. exact @opt_all_fail. Qed.
Print Assumptions C53_all_fail.
Theorem C53_no_tests : forall F (trial : nat -> nat -> F -> option bool) tc ratio i p, tc = 0 -> verdict trial tc ratio i p = false.
Proof. exact @no_tests_fail. Qed.
Print Assumptions C53_no_tests.
Theorem C53_passed_refuted : exists trial : nat -> nat -> f64 -> option bool, (forall i j p, trial i j p = Some false) /\
  match opt_accuracy_parameter trial 10 (w64 1) (w64 1) (frat 1 4) 3 with Ret h => feq h (w64 1) | _ => false end = true.
Proof. exists (fun _ _ _ => Some false). split; [reflexivity|]. vm_compute. reflexivity. Qed.
Print Assumptions C53_passed_refuted.
(** f64: with a small enough positive epsilon the search for 3/4 in [0, 3/2] never ends.  After 53 iterations [low] and [high] are
    adjacent floats whose middle rounds to [high]. *)
Theorem C53_terminates_refuted : exists trial (max_param epsilon : f64), flt f0 epsilon = true /\ (forall i p, completed trial 1 i p) /\
  forall fuel, opt_accuracy_parameter trial 1 (w64 1) max_param epsilon fuel = Diverge.
Proof. exact (ex_intro _ _ (ex_intro _ _ (ex_intro _ _ stuck_forever))). Qed.
Print Assumptions C53_terminates_refuted.
Example C53_nonvacuous : match opt_accuracy_parameter (fun _ j p => Some (fle (fdiv (w64 (Z.of_nat j)) (w64 8)) p)) 10 (frat 7 10) (w64 4) (frat 1 100) 20 with
  | Ret h => same64 h (fdiv (w64 3) (w64 4)) | _ => false end = true.
Proof. vm_compute. reflexivity. Qed.

(* ------------------------------------------------------------------ *)
(** * C54 *)
Theorem C54_add : forall m1 w1 m2 w2, (0 < w1)%R -> (0 < w2)%R ->
  exists m, cen_add (Cen (XFin m1) (XFin w1)) (Cen (XFin m2) (XFin w2)) = Cen (XFin m) (XFin (w1 + w2)) /\
    (Rmin m1 m2 <= m <= Rmax m1 m2)%R /\ (m * (w1 + w2) = m1 * w1 + m2 * w2)%R.
Proof. exact cen_add_ok. Qed.
Print Assumptions C54_add.
Theorem C54_comm : forall m1 w1 m2 w2,
  cen_add (Cen (XFin m1) (XFin w1)) (Cen (XFin m2) (XFin w2)) = cen_add (Cen (XFin m2) (XFin w2)) (Cen (XFin m1) (XFin w1)).
Proof. exact cen_add_comm. Qed.
Print Assumptions C54_comm.
Theorem C54_assoc : forall m1 w1 m2 w2 m3 w3, (0 < w1)%R -> (0 < w2)%R -> (0 < w3)%R ->
  cen_add (cen_add (Cen (XFin m1) (XFin w1)) (Cen (XFin m2) (XFin w2))) (Cen (XFin m3) (XFin w3)) =
  cen_add (Cen (XFin m1) (XFin w1)) (cen_add (Cen (XFin m2) (XFin w2)) (Cen (XFin m3) (XFin w3))).
Proof. exact cen_add_assoc. Qed.
Print Assumptions C54_assoc.
Theorem C54_sum : forall m w l, (0 < w)%R -> Forall (fun c => 0 < snd c)%R l ->
  fold_left (fun a c => cen_add a (Cen (XFin (fst c)) (XFin (snd c)))) l (Cen (XFin m) (XFin w)) =
  Cen (XFin ((m * w + sumR (map (fun c => fst c * snd c)%R l)) / (w + sumR (map snd l)))) (XFin (w + sumR (map snd l))).
Proof. exact cen_sum. Qed.
Print Assumptions C54_sum.
Example C54_nonvacuous : let c := cen_add (Cen (w64 1) (w64 3)) (Cen (w64 5) (w64 1)) in all_same [mean c; weight c] [w64 2; w64 4] = true.
Proof. vm_compute. reflexivity. Qed.

(* ------------------------------------------------------------------ *)
(** * C55 *)
(** [counted s]: [owned_size] is the size of the value and of every heap allocation it owns, each once *)
Theorem C55_tdigest : forall self cen cap, counted (size_tdigest self cen cap).
Proof. exact tdigest_counted. Qed.
Print Assumptions C55_tdigest.
(** BufferedDigest over any correctly counted digest (the subtraction does not underflow) *)
Theorem C55_buffered : forall self f cap d, counted d ->
  exists s, size_buffered self f cap d = Ret s /\ counted s /\ sz_self s = self /\ sz_allocs s = (f * cap :: sz_allocs d)%N.
Proof. exact buffered_counted. Qed.
Print Assumptions C55_buffered.
Theorem C55_par_tdigest : forall self f cap dself cen dcap,
  exists s, size_par_tdigest self f cap dself cen dcap = Ret s /\ counted s /\ sz_self s = self /\ sz_allocs s = [f * cap; cen * dcap]%N.
Proof. exact par_tdigest_counted. Qed.
Print Assumptions C55_par_tdigest.
Theorem C55_rc : forall self v f cap bufs counters, counted (size_rc self v f cap bufs counters).
Proof. exact rc_counted. Qed.
Print Assumptions C55_rc.
(** SymDigest leaves out the memory owned by its halves *)
Theorem C55_sym : forall self low high,
  (sz_owned (size_sym self low high) + sumN (sz_allocs low) + sumN (sz_allocs high) = memory (size_sym self low high))%N.
Proof. exact sym_missing. Qed.
Print Assumptions C55_sym.
Theorem C55_sym_refuted : exists self low high, counted low /\ counted high /\ ~ counted (size_sym self low high).
Proof. exists 112%N, (size_tdigest 56 16 100), (size_tdigest 56 16 0). split; [|split]; [reflexivity|reflexivity|vm_compute; discriminate]. Qed.
Print Assumptions C55_sym_refuted.
(** ParallelDigest counts the struct of every inner digest twice *)
Theorem C55_parallel : forall self d cap ds, Forall (fun s => counted s /\ sz_self s = d) ds ->
  sz_owned (size_parallel self d cap ds) = (memory (size_parallel self d cap ds) + d * N.of_nat (length ds))%N.
Proof. exact parallel_excess. Qed.
Print Assumptions C55_parallel.
Theorem C55_parallel_refuted : exists self d cap ds, Forall (fun s => counted s /\ sz_self s = d) ds /\ ~ counted (size_parallel self d cap ds).
Proof. exists 88%N, 56%N, 1%N, [size_tdigest 56 16 100]. split; [constructor; [split; reflexivity|constructor]|vm_compute; discriminate]. Qed.
Print Assumptions C55_parallel_refuted.
(** RCSketch2 counts four 4-byte vectors, it has three *)
Theorem C55_rc2 : forall self v f cap bufs c,
  sz_owned (size_rc2 self v f cap bufs c c c) = (memory (size_rc2 self v f cap bufs c c c) + 4 * c)%N.
Proof. exact rc2_excess. Qed.
Print Assumptions C55_rc2.
Theorem C55_rc2_refuted : exists self v f cap bufs c, ~ counted (size_rc2 self v f cap bufs c c c).
Proof. exists 120%N, 24%N, 8%N, 4%N, [64%N], 4%N. vm_compute. discriminate. Qed.
Print Assumptions C55_rc2_refuted.
Example C55_nonvacuous : match size_buffered 96 8 100 (size_tdigest 56 16 10) with Ret s => sz_owned s = 1056%N /\ counted s | _ => False end.
Proof. vm_compute. split; reflexivity. Qed.

(* ------------------------------------------------------------------ *)
(** * C61 *)
(** one error per test, each from an answer of the digest created on a dataset and the answer of a LinearDigest of the same dataset *)
Theorem C61_sample : forall F (FO : FloatOps F) (D : digest F) gen create (test_func : forall E : digest F, dst E -> M F) error_func n,
  whenever (fun errs => length errs = n /\
      forall j x, nth_error errs j = Some x -> exists d measured actual, returns (create j (gen j)) d /\
        returns (test_func D d) measured /\ returns (test_func (@linear_digest F FO) (gen j)) actual /\ x = error_func measured actual)
    (sample_digest_accuracy D gen create test_func error_func n).
Proof. exact @sample_spec. Qed.
Print Assumptions C61_sample.
(** LinearDigests that dropped the first two items, medians of 0 .. 2j+2 *)
Example C61_nonvacuous : match sample_digest_accuracy (@linear_digest f64 _) (fun j => gen_asc_vec (2 * Z.of_nat j + 3)) (fun j l => Ret (tl (tl l)))
    (fun E s => do (_, a) <- d_est_v E s fhalf; Ret a) fsub 3 with
  | Ret l => all_same l [w64 0; w64 1; w64 1] | _ => false end = true.
Proof. vm_compute. reflexivity. Qed.

(* ------------------------------------------------------------------ *)
(** * C62 *)
Theorem C62_length : forall F (FO : FloatOps F) size, length (gen_asc_vec size : list F) = Z.to_nat size.
Proof. exact @asc_length. Qed.
Print Assumptions C62_length.
Theorem C62_sorted : forall F (FO : FloatOps F) (FL : FloatLaws F) size i (x y : F),
  nth_error (gen_asc_vec size) i = Some x -> nth_error (gen_asc_vec size) (S i) = Some y -> fle x y = true.
Proof. exact @asc_sorted. Qed.
Print Assumptions C62_sorted.
(** the elements are 0, 1, .. as far as the integers are representable; any i32 is, in f64 *)
Theorem C62_exact_partial : forall F (FO : FloatOps F) (FL : FloatLaws F) size i, (Z.of_nat i < size)%Z -> (size <= fint + 1)%Z ->
  exists x : F, nth_error (gen_asc_vec size) i = Some x /\ fval x = XFin (INR i).
Proof. exact @asc_exact. Qed.
Print Assumptions C62_exact_partial.
Theorem C62_f64 : forall size i, (Z.of_nat i < size < 2 ^ 31)%Z ->
  exists x : f64, nth_error (gen_asc_vec size) i = Some x /\ fval x = XFin (INR i).
Proof. exact asc_f64. Qed.
Print Assumptions C62_f64.
(** f32: with more than 2^24 + 1 elements, two consecutive ones are equal *)
Theorem C62_f32_refuted : exists size i (x y : f32), (size < 2 ^ 31)%Z /\
  nth_error (gen_asc_vec size) i = Some x /\ nth_error (gen_asc_vec size) (S i) = Some y /\ feq x y = true.
Proof. exact asc_f32. Qed.
Print Assumptions C62_f32_refuted.
Theorem C62_centroids : forall F (FO : FloatOps F) size, gen_asc_centroid_vec size = map (fun x : F => Cen x f1) (gen_asc_vec size).
Proof. exact @asc_centroids. Qed.
Print Assumptions C62_centroids.
Example C62_nonvacuous : all_same (gen_asc_vec 4) (map w64 [0; 1; 2; 3]%Z) = true /\ length (gen_asc_vec (-1) : list f64) = 0.
Proof. split; vm_compute; reflexivity. Qed.

(* ------------------------------------------------------------------ *)
(** * C63 *)
(** whatever the random draws: one value per element, integers counted from 1; an element is one more than the previous if its draw is
    at most [block_prob a] = 0.001 * 0.98^(a-1) (f64, multiplied one by one), where a is the previous value, and equal to it otherwise *)
Theorem C63_blocks : forall F (FO : FloatOps F) (FL : FloatLaws F) draw size, (1 + size <= fint)%Z ->
  exists zs, map fval (gen_growing_blocks_vec draw size : list F) = map (fun z => XFin (IZR z)) zs /\ length zs = Z.to_nat size /\
    forall pre a b post, (1 :: zs = pre ++ a :: b :: post)%Z -> b = if fle (draw (length pre)) (block_prob a) then (a + 1)%Z else a.
Proof. exact @blocks_spec. Qed.
Print Assumptions C63_blocks.
Example C63_nonvacuous : all_same (gen_growing_blocks_vec (fun i => fdiv (w64 (Z.of_nat i)) (w64 2000)) 6) (map w64 [2; 3; 3; 3; 3; 3]%Z) = true.
Proof. vm_compute. reflexivity. Qed.
