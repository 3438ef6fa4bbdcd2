(** Property C98: range and monotonicity of the answers of a ParTDigest. *)
From Coq Require Import List Arith ZArith Lia Bool Reals Lra.
From Verif Require Import Base Floats XReal IEEE Digest TDigest Spec TDigestExact TDigestHist TDigestTop ScaleFunctions ParTDProofs P_Parallel P_TDigest P_Cluster ParTDRange.
Set Implicit Arguments.
Local Open Scope R_scope.

(** Quantile queries lie in [0, 1]: 0 below and 1 above all the data.  Exact arithmetic; never a panic. *)
Theorem C98_quantile_range : forall cfg : tcfg xr, lib_ok cfg -> forall threads capacity, (1 <= threads)%nat -> forall ops rs,
  Forall xok ops -> items_of ops = map XFin rs -> rs <> [] -> (Z.of_nat (length rs) < 2 ^ 64)%Z ->
  always (fun r => forall v, v <> XNaN -> exists s' a, d_est_q (par_t_digest cfg threads capacity td_new) (fst r) v = Ret (s', XFin a) /\ 0 <= a <= 1 /\
      ((forall x, In x rs -> xlt v (XFin x)) -> a = 0) /\ ((forall x, In x rs -> xlt (XFin x) v) -> a = 1))
    (exec (par_t_digest cfg threads capacity td_new) (pt_new td_new) ops).
Proof. exact pt_q_range. Qed.
Print Assumptions C98_quantile_range.

(** Refuted: monotone.  Eight items in one delivery: the estimated quantile of 18 is above that of 19. *)
Definition par_mono : list (op f64) := [AddBuf (map w64 [15; 0; 1; 2; 10; 18; 19; 20]%Z); Quant (w64 18); Quant (w64 19)].
Theorem C98_monotone_refuted : match par_run 1 100 4 par_mono with Ret [a; b] => flt b a = true | _ => False end.
Proof. vm_compute. reflexivity. Qed.
Print Assumptions C98_monotone_refuted.
(** Where it is monotone ([pt_flush] is the delivery a query makes first; mn and mx are the answers at 0 and 1, see C30).
    Missing: queries below a lowest centroid that is a singleton above mn; at, or beyond a singleton, highest centroid below mx; rounding. *)
Theorem C98_monotone_partial : forall cfg : tcfg xr, lib_ok cfg -> forall threads capacity, (1 <= threads)%nat -> forall ops rs,
  Forall xok ops -> items_of ops = map XFin rs -> rs <> [] -> (Z.of_nat (length rs) < 2 ^ 64)%Z ->
  always (fun r => exists s' l first last mn mx, pt_flush cfg threads td_new (fst r) = Ret s' /\ listed (pt_digest s') l /\ head l = Some first /\ last_error l = Some last /\
      d_est_v (par_t_digest cfg threads capacity td_new) (fst r) f0 = Ret (s', XFin mn) /\ d_est_v (par_t_digest cfg threads capacity td_new) (fst r) f1 = Ret (s', XFin mx) /\
      forall v w, v <= w ->
        (fst first = mn \/ 2 <= snd first \/ fst first <= v) -> (fst last = mx \/ (2 <= snd last /\ v <> fst last) \/ w <= fst last) ->
        exists a b, d_est_q (par_t_digest cfg threads capacity td_new) (fst r) (XFin v) = Ret (s', XFin a) /\
                    d_est_q (par_t_digest cfg threads capacity td_new) (fst r) (XFin w) = Ret (s', XFin b) /\ a <= b)
    (exec (par_t_digest cfg threads capacity td_new) (pt_new td_new) ops).
Proof. exact pt_q_mono. Qed.
Print Assumptions C98_monotone_partial.

(** Refuted: value queries within the range of the data, and monotone: of four tens the first quartile is 10 and the median 9; of two tens, NaN. *)
Theorem C98_value_refuted : gives (par_run 2 100 1 [AddBuf (map w64 [10; 10; 10; 10]%Z); Val (frat 1 4); Val fhalf]) [w64 10; w64 9] = true /\
  gives (par_run 1 100 1 [AddBuf (map w64 [10; 10]%Z); Val fhalf]) [fnan] = true.
Proof. vm_compute. split; reflexivity. Qed.
Print Assumptions C98_value_refuted.
(** Within the range and monotone elsewhere (missing: 1 <= n (1 - q) <= w/2 for a last centroid of weight w > 1, where the
    answer is NaN for w = 2 and otherwise at most the maximum; rounding). *)
Theorem C98_value_partial : forall cfg : tcfg xr, lib_ok cfg -> forall threads capacity, (1 <= threads)%nat -> forall ops rs,
  Forall xok ops -> items_of ops = map XFin rs -> rs <> [] -> (Z.of_nat (length rs) < 2 ^ 64)%Z ->
  always (fun r => exists s' l last mn mx, pt_flush cfg threads td_new (fst r) = Ret s' /\ listed (pt_digest s') l /\ last_error l = Some last /\ leastR rs mn /\ mostR rs mx /\
      (forall q, 0 <= q <= 1 -> clear_last rs last q -> exists a, d_est_v (par_t_digest cfg threads capacity td_new) (fst r) (XFin q) = Ret (s', XFin a) /\ mn <= a <= mx) /\
      (forall q q', 0 <= q -> q <= q' -> q' <= 1 -> clear_last rs last q -> clear_last rs last q' ->
         exists a b, d_est_v (par_t_digest cfg threads capacity td_new) (fst r) (XFin q) = Ret (s', XFin a) /\
                     d_est_v (par_t_digest cfg threads capacity td_new) (fst r) (XFin q') = Ret (s', XFin b) /\ a <= b) /\
      (forall q, 0 <= q <= 1 -> ~ clear_last rs last q ->
         (snd last = 2 /\ d_est_v (par_t_digest cfg threads capacity td_new) (fst r) (XFin q) = Ret (s', XNaN)) \/
         exists a, d_est_v (par_t_digest cfg threads capacity td_new) (fst r) (XFin q) = Ret (s', XFin a) /\ a <= mx))
    (exec (par_t_digest cfg threads capacity td_new) (pt_new td_new) ops).
Proof. exact pt_v_range. Qed.
Print Assumptions C98_value_partial.

Example C98_nonvacuous : gives (par_run 2 3 4 [AddBuf (map w64 [3; 1; 2; 5]%Z); Add (w64 9); Quant (w64 0); Quant (w64 10); Val f0; Val f1])
  [f0; f1; frat 3 2; w64 9] = true.
Proof. vm_compute. reflexivity. Qed.
