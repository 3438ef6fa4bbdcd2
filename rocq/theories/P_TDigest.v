(** Properties C13-C21 and C24: the t-digest under add, add_buffer and queries. *)
From Coq Require Import List Arith ZArith Lia Bool Permutation Sorted Reals Lra.
From Flocq Require Import Core BinarySingleNaN.
From Verif Require Import Base Floats XReal IEEE Digest TDigest ScaleFunctions Spec FloatFacts History TDigestProofs TDigestProofs2 TDigestExact TDigestExactQ TDigestExactV TDigestHist TDigestTop P_Parallel.
Set Implicit Arguments.

(** A digest with the linear scale function k0 in f64, and its answers to a history. *)
Definition lin (cf : Z) : digest f64 := t_digest (plain k0 inv_k0 (w64 cf)).
Definition run64 (cf : Z) (ops : list (op f64)) : M (list f64) := do (s, a) <- exec (lin cf) td_new ops; Ret a.
Definition state64 (cf : Z) (ops : list (op f64)) : M (tdigest f64) := do (s, a) <- exec (lin cf) td_new ops; Ret s.

(** the answers are numerically [l] (NaN matching NaN) *)
Definition same64 (a b : f64) : bool := feq a b || (fisnan a && fisnan b).
Fixpoint all_same (l l' : list f64) : bool :=
  match l, l' with [] , [] => true | a :: l, b :: l' => same64 a b && all_same l l' | _, _ => false end.
Definition gives (m : M (list f64)) (l : list f64) : bool := match m with Ret a => all_same a l | _ => false end.
Definition flat (m : M (tdigest f64)) : M (list f64) :=
  do s <- m; Ret (t_min s :: t_max s :: flat_map (fun c => [mean c; weight c]) (t_centroids s)).

(* ------------------------------------------------------------------ *)
(** * C13 *)

(** Any scale closures, any arithmetic with exact integers up to [fint] (2^53 in f64): whenever the history runs through
    (nothing is assumed about the values), the count is the number of items. *)
Theorem C13_count : forall F (FO : FloatOps F) (FL : FloatLaws F) (cfg : tcfg F), lib_ok cfg -> forall ops : list (op F),
  (Z.of_nat (length (items_of ops)) <= fint)%Z -> (Z.of_nat (length (items_of ops)) <= 2 ^ 53)%Z ->
  whenever (fun r => d_count (t_digest cfg) (fst r) = Ret (Z.of_nat (length (items_of ops))) /\
                     fval (total_weight (fst r)) = XFin (IZR (Z.of_nat (length (items_of ops)))))
    (exec (t_digest cfg) td_new ops).
Proof. exact @td_history_count. Qed.
Print Assumptions C13_count.

(** f64, items finite and of magnitude at most 2^900: every history runs through, without a panic. *)
Theorem C13_count_f64 : forall cfg : tcfg f64, lib_ok cfg -> forall ops, Forall f64_ok ops -> (Z.of_nat (length (items_of ops)) <= 2 ^ 52)%Z ->
  always (fun r => d_count (t_digest cfg) (fst r) = Ret (Z.of_nat (length (items_of ops))) /\
                   (forall v, fisnan v = false -> exists a, d_est_q (t_digest cfg) (fst r) v = Ret (fst r, a)) /\
                   (forall q p, fval q = XFin p -> (0 <= p <= 1)%R -> exists a, d_est_v (t_digest cfg) (fst r) q = Ret (fst r, a)))
    (exec (t_digest cfg) td_new ops).
Proof. exact td_f64_total. Qed.
Print Assumptions C13_count_f64.

(** Exact arithmetic: up to the range of the u64 the count is returned in. *)
Theorem C13_count_exact : forall cfg : tcfg xr, lib_ok cfg -> forall ops rs, items_of ops = map XFin rs ->
  (Z.of_nat (length rs) < 2 ^ 64)%Z ->
  whenever (fun r => d_count (t_digest cfg) (fst r) = Ret (Z.of_nat (length rs))) (exec (t_digest cfg) td_new ops).
Proof. exact td_exact_count. Qed.
Print Assumptions C13_count_exact.

(** the library contract can be met, for any scale closures *)
Example C13_contract : forall F (FO : FloatOps F) (FL : FloatLaws F) scale inv (cf : F), lib_ok (plain scale inv cf).
Proof. exact @plain_ok. Qed.
Example C13_nonvacuous : (do s <- state64 3 [AddBuf (map w64 [20; 0; 10]%Z); Quant (w64 5); Add (w64 3); Val fhalf];
                          do c <- td_count s; Ret (length (t_centroids s), c)) = Ret (3, 4%Z).
Proof. vm_compute. reflexivity. Qed.

(* ------------------------------------------------------------------ *)
(** * C14 *)
Theorem C14_weighted_sum : forall cfg : tcfg xr, lib_ok cfg -> forall ops rs, items_of ops = map XFin rs ->
  whenever (fun r => exists l, listed (fst r) l /\ sumR (map snd l) = INR (length rs) /\
                               sumR (map (fun p => fst p * snd p) l)%R = sumR rs)
    (exec (t_digest cfg) td_new ops).
Proof. exact td_exact_mass. Qed.
Print Assumptions C14_weighted_sum.

(* ------------------------------------------------------------------ *)
(** * C15 *)
Theorem C15_shape : forall cfg : tcfg xr, lib_ok cfg -> forall ops rs, items_of ops = map XFin rs -> rs <> [] ->
  whenever (fun r => exists l mn mx, listed (fst r) l /\ l <> [] /\ t_min (fst r) = XFin mn /\ t_max (fst r) = XFin mx /\
      leastR rs mn /\ mostR rs mx /\
      StronglySorted (fun a b => fst a <= fst b)%R l /\
      Forall (fun p => (mn <= fst p <= mx)%R /\ exists z, (1 <= z)%Z /\ snd p = IZR z) l)
    (exec (t_digest cfg) td_new ops).
Proof. exact td_exact_shape. Qed.
Print Assumptions C15_shape.

(* ------------------------------------------------------------------ *)
(** * C16 *)

(** Refuted in f64: three times 0.1 average to more than 0.1, and the next merge takes that as the maximum. *)
Definition tenth : f64 := frat 1 10.
Lemma drift_witness :
  match state64 1 [AddBuf [tenth; tenth; tenth]; Add tenth] with
  | Ret s => match d_est_v (lin 1) s f1 with Ret (_, m) => flt tenth m | _ => false end
  | _ => false end = true.
Proof. vm_compute. reflexivity. Qed.
Theorem C16_extremes_f64_refuted : exists (cf : Z) (its : list f64) (more : f64),
  match state64 cf [AddBuf its; Add more] with
  | Ret s => match d_est_v (lin cf) s f1 with Ret (_, m) => forallb (fun x => flt x m) (its ++ [more]) | _ => false end
  | _ => false end = true.
Proof. exists 1%Z, [tenth; tenth; tenth], tenth. vm_compute. reflexivity. Qed.
Print Assumptions C16_extremes_f64_refuted.

(** In any arithmetic the extremes cover the data... *)
Theorem C16_cover : forall F (FO : FloatOps F) (FL : FloatLaws F) (cfg : tcfg F), lib_ok cfg -> forall ops : list (op F), no_nan (items_of ops) ->
  whenever (fun r => forall x, In x (items_of ops) -> fle (t_min (fst r)) x = true /\ fle x (t_max (fst r)) = true)
    (exec (t_digest cfg) td_new ops).
Proof. exact @td_exec_covers. Qed.
Print Assumptions C16_cover.

(** ... and the queries at 0 and 1 return them. *)
Theorem C16_query_ends : forall F (FO : FloatOps F) (FL : FloatLaws F) (cfg : tcfg F), lib_ok cfg -> forall ops : list (op F),
  items_of ops <> [] -> (Z.of_nat (length (items_of ops)) <= fint)%Z -> (Z.of_nat (length (items_of ops)) <= 2 ^ 53)%Z ->
  whenever (fun r => d_est_v (t_digest cfg) (fst r) f0 = Ret (fst r, t_min (fst r)) /\
                     d_est_v (t_digest cfg) (fst r) f1 = Ret (fst r, t_max (fst r)))
    (exec (t_digest cfg) td_new ops).
Proof. exact @td_history_ends. Qed.
Print Assumptions C16_query_ends.

(** Exactly the extremes without rounding (missing from the full claim: f64, where it is refuted above). *)
Theorem C16_extremes_exact_partial : forall cfg : tcfg xr, lib_ok cfg -> forall ops rs, items_of ops = map XFin rs -> rs <> [] ->
  whenever (fun r => exists mn mx, leastR rs mn /\ mostR rs mx /\ t_min (fst r) = XFin mn /\ t_max (fst r) = XFin mx /\
      d_est_v (t_digest cfg) (fst r) f0 = Ret (fst r, XFin mn) /\ d_est_v (t_digest cfg) (fst r) f1 = Ret (fst r, XFin mx))
    (exec (t_digest cfg) td_new ops).
Proof. exact td_exact_ends. Qed.
Print Assumptions C16_extremes_exact_partial.

(* ------------------------------------------------------------------ *)
(** * C17 *)

(** Never a panic, whatever the centroids -- sorted or not, any weights -- as long as no mean is NaN. *)
Theorem C17_no_panic : forall F (FO : FloatOps F) (FL : FloatLaws F) (s : tdigest F) (v : F),
  fisnan v = false -> Forall (fun c => fisnan (mean c) = false) (t_centroids s) -> exists a, td_est_q s v = Ret a.
Proof. exact @td_est_q_total. Qed.
Print Assumptions C17_no_panic.

Theorem C17_range : forall cfg : tcfg xr, lib_ok cfg -> forall ops rs, items_of ops = map XFin rs -> rs <> [] ->
  whenever (fun r => forall v, v <> XNaN ->
      exists a, d_est_q (t_digest cfg) (fst r) v = Ret (fst r, XFin a) /\ (0 <= a <= 1)%R /\
        ((forall x, In x rs -> xlt v (XFin x)) -> a = 0%R) /\ ((forall x, In x rs -> xlt (XFin x) v) -> a = 1%R))
    (exec (t_digest cfg) td_new ops).
Proof. exact td_exact_q_range. Qed.
Print Assumptions C17_range.

(** The NaN query, excluded above, does panic. *)
Theorem C17_nan_query_panics : is_panic (do s <- state64 3 [AddBuf (map w64 [20; 0; 10]%Z)]; td_est_q s fnan) = true.
Proof. vm_compute. reflexivity. Qed.
Print Assumptions C17_nan_query_panics.

Example C17_nonvacuous : gives (run64 3 [AddBuf (map w64 [20; 0; 10]%Z); Quant (w64 (-1)); Quant (w64 5); Quant (w64 21)])
                         [f0; fdiv f1 (w64 3); f1] = true.
Proof. vm_compute. reflexivity. Qed.

(* ------------------------------------------------------------------ *)
(** * C18 *)

(** Refuted: with k0 and compression factor 3, after [0; 10; 20] and then 3, the quantile of 0 is estimated above the
    quantile of 3. *)
Definition mono_ops : list (op f64) := [AddBuf (map w64 [0; 10; 20]%Z); Add (w64 3); Quant (w64 0); Quant (w64 3)].
Theorem C18_monotone_refuted :
  match run64 3 mono_ops with Ret [a; b] => flt b a = true | _ => False end.
Proof. vm_compute. reflexivity. Qed.
Print Assumptions C18_monotone_refuted.

(** Where it is monotone, for all histories and closures (missing: queries below a lowest centroid that is a singleton
    above the minimum; queries at, or beyond a singleton, highest centroid below the maximum; rounding). *)
Theorem C18_monotone_partial : forall cfg : tcfg xr, lib_ok cfg -> forall ops rs, items_of ops = map XFin rs -> rs <> [] ->
  whenever (fun r => exists l first last mn mx, listed (fst r) l /\ head l = Some first /\ last_error l = Some last /\
      leastR rs mn /\ mostR rs mx /\
      forall v w, (v <= w)%R ->
        (fst first = mn \/ 2 <= snd first \/ fst first <= v)%R ->
        (fst last = mx \/ (2 <= snd last /\ v <> fst last) \/ w <= fst last)%R ->
        exists a b, d_est_q (t_digest cfg) (fst r) (XFin v) = Ret (fst r, XFin a) /\
                    d_est_q (t_digest cfg) (fst r) (XFin w) = Ret (fst r, XFin b) /\ (a <= b)%R)
    (exec (t_digest cfg) td_new ops).
Proof. exact td_exact_q_mono. Qed.
Print Assumptions C18_monotone_partial.

(* ------------------------------------------------------------------ *)
(** * C19 *)
Theorem C19_no_panic : forall F (FO : FloatOps F) (FL : FloatLaws F) (s : tdigest F) (n : Z) (q : F) (r : R),
  holds s n -> (2 * n <= fint)%Z -> (n <= 2 ^ 53)%Z -> fval q = XFin r -> (0 <= r <= 1)%R -> exists v, td_est_v s q = Ret v.
Proof. exact @td_est_v_total. Qed.
Print Assumptions C19_no_panic.

(** all histories in f64: see also C13_count_f64 *)
Theorem C19_no_panic_f64 : forall cfg : tcfg f64, lib_ok cfg -> forall ops, Forall f64_ok ops -> (Z.of_nat (length (items_of ops)) <= 2 ^ 52)%Z ->
  always (fun r => d_count (t_digest cfg) (fst r) = Ret (Z.of_nat (length (items_of ops))) /\
                   (forall v, fisnan v = false -> exists a, d_est_q (t_digest cfg) (fst r) v = Ret (fst r, a)) /\
                   (forall q p, fval q = XFin p -> (0 <= p <= 1)%R -> exists a, d_est_v (t_digest cfg) (fst r) q = Ret (fst r, a)))
    (exec (t_digest cfg) td_new ops).
Proof. exact td_f64_total. Qed.
Print Assumptions C19_no_panic_f64.

Theorem C19_no_panic_exact : forall cfg : tcfg xr, lib_ok cfg -> forall ops rs, items_of ops = map XFin rs -> Forall xok ops ->
  (Z.of_nat (length rs) < 2 ^ 64)%Z ->
  always (fun r => (forall v, v <> XNaN -> exists a, d_est_q (t_digest cfg) (fst r) v = Ret (fst r, a)) /\
                   (forall q, (0 <= q <= 1)%R -> exists a, d_est_v (t_digest cfg) (fst r) (XFin q) = Ret (fst r, a)))
    (exec (t_digest cfg) td_new ops).
Proof. exact td_exact_returns. Qed.
Print Assumptions C19_no_panic_exact.

(* ------------------------------------------------------------------ *)
(** * C20 *)

(** Refuted: the median of four tens is 9; of two tens, NaN. *)
Theorem C20_range_refuted : gives (run64 1 [AddBuf (map w64 [10; 10; 10; 10]%Z); Val fhalf]) [w64 9] = true.
Proof. vm_compute. reflexivity. Qed.
Print Assumptions C20_range_refuted.
Theorem C20_nan_refuted : gives (run64 1 [AddBuf (map w64 [10; 10]%Z); Val fhalf]) [fnan] = true.
Proof. vm_compute. reflexivity. Qed.
Print Assumptions C20_nan_refuted.

(** For all histories, all closures, exact arithmetic (missing: the last branch -- 1 <= n(1-q) <= w/2 for a last centroid
    of weight w >= 2 -- where the answer is NaN for w = 2 and within 1 below the maximum otherwise; rounding). C21 is the
    second line. *)
Theorem C20_range_partial : forall cfg : tcfg xr, lib_ok cfg -> forall ops rs, items_of ops = map XFin rs -> rs <> [] ->
  (Z.of_nat (length rs) < 2 ^ 64)%Z ->
  whenever (fun r => exists l last mn mx, listed (fst r) l /\ last_error l = Some last /\ leastR rs mn /\ mostR rs mx /\
      (forall q, (0 <= q <= 1)%R -> clear_last rs last q ->
         exists a, d_est_v (t_digest cfg) (fst r) (XFin q) = Ret (fst r, XFin a) /\ (mn <= a <= mx)%R) /\
      (forall q q', (0 <= q)%R -> (q <= q')%R -> (q' <= 1)%R -> clear_last rs last q -> clear_last rs last q' ->
         exists a b, d_est_v (t_digest cfg) (fst r) (XFin q) = Ret (fst r, XFin a) /\
                     d_est_v (t_digest cfg) (fst r) (XFin q') = Ret (fst r, XFin b) /\ (a <= b)%R) /\
      (forall q, (0 <= q <= 1)%R -> ~ clear_last rs last q ->
         (snd last = 2%R /\ d_est_v (t_digest cfg) (fst r) (XFin q) = Ret (fst r, XNaN)) \/
         exists a, d_est_v (t_digest cfg) (fst r) (XFin q) = Ret (fst r, XFin a) /\ (mx - 1 <= a <= mx)%R))
    (exec (t_digest cfg) td_new ops).
Proof. exact td_exact_v. Qed.
Print Assumptions C20_range_partial.

(* ------------------------------------------------------------------ *)
(** * C21 *)

(** Refuted: of four tens, the first quartile is 10 and the median 9. *)
Theorem C21_monotone_refuted :
  gives (run64 1 [AddBuf (map w64 [10; 10; 10; 10]%Z); Val (frat 1 4); Val fhalf]) [w64 10; w64 9] = true.
Proof. vm_compute. reflexivity. Qed.
Print Assumptions C21_monotone_refuted.

(** Missing: the same last branch as in C20, and rounding. *)
Theorem C21_monotone_partial : forall cfg : tcfg xr, lib_ok cfg -> forall ops rs, items_of ops = map XFin rs -> rs <> [] ->
  (Z.of_nat (length rs) < 2 ^ 64)%Z ->
  whenever (fun r => exists l last mn mx, listed (fst r) l /\ last_error l = Some last /\ leastR rs mn /\ mostR rs mx /\
      (forall q, (0 <= q <= 1)%R -> clear_last rs last q ->
         exists a, d_est_v (t_digest cfg) (fst r) (XFin q) = Ret (fst r, XFin a) /\ (mn <= a <= mx)%R) /\
      (forall q q', (0 <= q)%R -> (q <= q')%R -> (q' <= 1)%R -> clear_last rs last q -> clear_last rs last q' ->
         exists a b, d_est_v (t_digest cfg) (fst r) (XFin q) = Ret (fst r, XFin a) /\
                     d_est_v (t_digest cfg) (fst r) (XFin q') = Ret (fst r, XFin b) /\ (a <= b)%R) /\
      (forall q, (0 <= q <= 1)%R -> ~ clear_last rs last q ->
         (snd last = 2%R /\ d_est_v (t_digest cfg) (fst r) (XFin q) = Ret (fst r, XNaN)) \/
         exists a, d_est_v (t_digest cfg) (fst r) (XFin q) = Ret (fst r, XFin a) /\ (mx - 1 <= a <= mx)%R))
    (exec (t_digest cfg) td_new ops).
Proof. exact td_exact_v. Qed.
Print Assumptions C21_monotone_partial.

Example C21_nonvacuous : gives (run64 3 [AddBuf (map w64 [0; 10; 20]%Z); Val (frat 1 2); Val (frat 3 4)]) [w64 5; w64 20] = true.
Proof. vm_compute. reflexivity. Qed.

(* ------------------------------------------------------------------ *)
(** * C24 *)

(** Two digests with the same closures whose library sorts differ, given the same buffer in different orders: same
    result. [no_twins]: no two items compare equal without being the same (the two zeros). *)
Theorem C24_order : forall F (FO : FloatOps F) (FL : FloatLaws F) (cfg cfg' : tcfg F), lib_ok cfg -> lib_ok cfg' ->
  tc_scale cfg = tc_scale cfg' -> tc_inv cfg = tc_inv cfg' -> tc_cf cfg = tc_cf cfg' ->
  forall l l' : list F, Permutation l l' -> no_nan l -> no_twins l ->
  exists r r', td_add_buffer cfg td_new l = Ret r /\ td_add_buffer cfg' td_new l' = Ret r' /\
    t_centroids r = t_centroids r' /\ t_min r = t_min r' /\ t_max r = t_max r'.
Proof. exact @td_add_buffer_order. Qed.
Print Assumptions C24_order.

Example C24_nonvacuous : let l := [w64 1; w64 7; frat 3 2; w64 2; frat 11 2; w64 2] in
  gives (flat (td_add_buffer (plain k0 inv_k0 (w64 3)) td_new (map w64 [7; 1; 4; 2]%Z))) l &&
  gives (flat (td_add_buffer (plain k0 inv_k0 (w64 3)) td_new (map w64 [1; 2; 7; 4]%Z))) l = true.
Proof. vm_compute. reflexivity. Qed.
