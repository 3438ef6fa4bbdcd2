(** Property C97: the example programs plot what they claim (examples/demo.rs, helpers of examples/accuracy.rs). *)
From Coq Require Import List Arith ZArith NArith Lia Bool Permutation Reals Lra.
From Flocq Require Import Core.
From Verif Require Import Base Floats XReal IEEE Digest Spec FloatFacts History TDigest TDigestTop TDigestRange3 RCSketch RCProofs RCHist RCTop Util P_Parallel P_TDigest P_RC Demo.
Set Implicit Arguments.
Set Universe Polymorphism.
Unset Universe Minimization ToSet.

(** [usable l]: non-empty, no NaN, of a length the float type can count; [a_quantile q]: a number in [0, 1];
    [exact_value l q x]: x is the item at position min(round(q n), n - 1) of the sorted data, the product rounded as floats do;
    [point P q pt]: pt = (q, [1000 x]) for some estimate x with P q x. *)

(** The line "Actual distribution": one point per quantile, in order, 1000 times the order statistic of the dataset. *)
Theorem C97_linear : forall {F} {FO : FloatOps F} {FL : FloatLaws F} (dataset qs : list F), usable dataset -> Forall a_quantile qs ->
  always (fun pts => Forall2 (point (exact_value dataset)) qs pts) (demo_line (@linear_digest F FO) demo_linear dataset qs).
Proof. exact @demo_linear_line. Qed.
Print Assumptions C97_linear.

(** The line "RC Sketch": whatever the coins, no panic, and 1000 times an item of the dataset at every quantile (k even; 4 in the program). *)
Theorem C97_rc : forall {F} {FO : FloatOps F} {FL : FloatLaws F} (lg : F -> F) k (dataset qs : list F), usable dataset -> Forall a_quantile qs ->
  rc_params lg (length dataset) k -> Nat.even k = true -> (N.of_nat (length dataset / k) <= u32_max)%N ->
  always (fun pts => Forall2 (point (fun _ x => In x dataset)) qs pts) (demo_line rc_digest (demo_rc lg k) dataset qs).
Proof. exact @demo_rc_line. Qed.
Print Assumptions C97_rc.

(** The line "t-Digest" for f32, the type of the program, and f64: no panic and one point per quantile, for any scale functions,
    compression factor and chunk size. *)
Theorem C97_t_f32 : forall cfg : tcfg f32, lib_ok cfg -> forall chunk dataset qs, dataset <> [] -> Forall moderate32 dataset ->
  (Z.of_nat (length dataset) <= 2 ^ 23)%Z -> 1 <= chunk -> Forall a_quantile qs ->
  always (fun pts => Forall2 (point (fun _ _ => True)) qs pts) (demo_line (t_digest cfg) (demo_t cfg chunk) dataset qs).
Proof. exact demo_t_f32. Qed.
Print Assumptions C97_t_f32.
Theorem C97_t_f64 : forall cfg : tcfg f64, lib_ok cfg -> forall chunk dataset qs, dataset <> [] -> Forall moderate dataset ->
  (Z.of_nat (length dataset) <= 2 ^ 52)%Z -> 1 <= chunk -> Forall a_quantile qs ->
  always (fun pts => Forall2 (point (fun _ _ => True)) qs pts) (demo_line (t_digest cfg) (demo_t cfg chunk) dataset qs).
Proof. exact demo_t_f64. Qed.
Print Assumptions C97_t_f64.

(** The sketches behind the lines hold the whole dataset. *)
Theorem C97_t_count_f32 : forall cfg : tcfg f32, lib_ok cfg -> forall chunk dataset, Forall moderate32 dataset ->
  (Z.of_nat (length dataset) <= 2 ^ 23)%Z -> 1 <= chunk ->
  always (fun s => d_count (t_digest cfg) s = Ret (Z.of_nat (length dataset))) (demo_t cfg chunk dataset).
Proof. exact demo_t_count32. Qed.
Print Assumptions C97_t_count_f32.
Theorem C97_t_count_f64 : forall cfg : tcfg f64, lib_ok cfg -> forall chunk dataset, Forall moderate dataset ->
  (Z.of_nat (length dataset) <= 2 ^ 52)%Z -> 1 <= chunk ->
  always (fun s => d_count (t_digest cfg) s = Ret (Z.of_nat (length dataset))) (demo_t cfg chunk dataset).
Proof. exact demo_t_count64. Qed.
Print Assumptions C97_t_count_f64.
Theorem C97_rc_count : forall {F} {FO : FloatOps F} {FL : FloatLaws F} (lg : F -> F) k (dataset : list F), no_nan dataset ->
  rc_params lg (length dataset) k -> (N.of_nat (length dataset / k) <= u32_max)%N ->
  always (fun s => d_count rc_digest s = Ret (Z.of_nat (length dataset))) (demo_rc lg k dataset).
Proof. exact @demo_rc_count. Qed.
Print Assumptions C97_rc_count.

(** accuracy.rs: the values plotted for a list of quantiles, asked one after the other of one digest *)
Theorem C97_values_from_quantiles : forall {F} {FO : FloatOps F} {FL : FloatLaws F} (dataset qs : list F), usable dataset -> Forall a_quantile qs ->
  always (fun xs => Forall2 (exact_value dataset) qs xs) (values_from_quantiles dataset qs).
Proof. exact @values_from_quantiles_exact. Qed.
Print Assumptions C97_values_from_quantiles.

(** accuracy.rs: the error functions, for finite numbers: |measured - actual| rounded once; relative to a zero the size of
    the measurement, otherwise that over |actual| rounded again. *)
Theorem C97_absolute : forall {F} {FO : FloatOps F} {FL : FloatLaws F} (m t : F) a b, fval m = XFin a -> fval t = XFin b ->
  fval (absolute_error m t) = xabs (frnd (a - b)).
Proof. exact @absolute_val. Qed.
Print Assumptions C97_absolute.
Theorem C97_relative_zero : forall {F} {FO : FloatOps F} {FL : FloatLaws F} (m t : F) a, fval m = XFin a -> fval t = XFin 0 ->
  fval (relative_error m t) = XFin (Rabs a).
Proof. exact @relative_zero. Qed.
Print Assumptions C97_relative_zero.
Theorem C97_relative : forall {F} {FO : FloatOps F} {FL : FloatLaws F} (m t : F) a b d, fval m = XFin a -> fval t = XFin b -> b <> 0%R ->
  frnd (a - b) = XFin d -> fval (relative_error m t) = frnd (Rabs d / Rabs b).
Proof. exact @relative_val. Qed.
Print Assumptions C97_relative.

(** sample_digest_accuracy of the exact digest: measured and actual value are the same order statistic, every time. *)
Theorem C97_self : forall {F} {FO : FloatOps F} {FL : FloatLaws F} (dataset : list F) q (err : F -> F -> F) n, usable dataset -> a_quantile q ->
  always (fun es => length es = n /\ Forall (fun e => exists x, exact_value dataset q x /\ e = err x x) es)
    (sample_digest_accuracy (@linear_digest F FO) (fun _ => dataset) (fun _ => demo_linear) (demo_test q) err n).
Proof. exact @self_measure. Qed.
Print Assumptions C97_self.

(* ------------------------------------------------------------------ *)
Definition data24 : list f64 := map w64 [13; 2; 24; 7; 18; 5; 11; 20; 1; 9; 16; 22; 3; 14; 8; 19; 6; 23; 10; 17; 4; 12; 21; 15]%Z.
Definition quant24 : list f64 := [frat 1 24; frat 1 4; fhalf; frat 7 8; w64 1].
Definition same_pts (p p' : list (f64 * list f64)) : bool :=
  forallb (fun x => feq (fst (fst x)) (fst (snd x)) && forallb (fun y => feq (fst y) (snd y)) (combine (snd (fst x)) (snd (snd x))) && (length (snd (fst x)) =? length (snd (snd x))))
    (combine p p') && (length p =? length p').
Definition pts (l : list Z) : list (f64 * list f64) := combine quant24 (map (fun z => [w64 z]) l).
Example C97_linear_nonvacuous : match demo_line (@linear_digest f64 _) demo_linear data24 quant24 with
  | Ret p => same_pts p (pts [2000; 7000; 13000; 22000; 24000]%Z) = true | _ => False end.
Proof. vm_compute. reflexivity. Qed.
Example C97_rc_nonvacuous : rc_params lg64 24 2 /\
  match run (demo_line rc_digest (demo_rc lg64 2) data24 quant24) (repeat true 60) with
  | Returned p => length p = 5 /\ forallb (fun x => existsb (fun y => feq (fst x) (fst x) && forallb (feq (fmul y (w64 1000))) (snd x)) data24) p = true | _ => False end.
Proof. split; [apply params64; try lia; vm_compute; reflexivity|]. vm_compute. split; reflexivity. Qed.
Example C97_values_nonvacuous : match values_from_quantiles data24 quant24 with
  | Ret l => forallb (fun p => feq (fst p) (snd p)) (combine l (map w64 [2; 7; 13; 22; 24]%Z)) = true /\ length l = 5 | _ => False end.
Proof. vm_compute. split; reflexivity. Qed.
Example C97_errors_nonvacuous : feq (absolute_error (w64 3) (w64 5)) (w64 2) = true /\ feq (relative_error (w64 3) (w64 4)) (frat 1 4) = true /\
  feq (relative_error (w64 (-3)) (w64 0)) (w64 3) = true.
Proof. vm_compute. repeat split. Qed.

(** The points of the t-digest line need not lie in the range of the data (C20): four tens, and 9 is plotted for the median. *)
Definition tcfg64 (cf : Z) : tcfg f64 := plain (fun q c _ => fmul c q) (fun k c _ => fdiv k c) (w64 cf).
Example C97_t_nonvacuous : lib_ok (tcfg64 1%Z) /\ 
  match demo_line (t_digest (tcfg64 1%Z)) (demo_t (tcfg64 1%Z) 5) (map w64 [10; 10; 10; 10]%Z) [frat 1 4; fhalf] with
  | Ret p => same_pts p [(frat 1 4, [w64 10000]); (fhalf, [w64 9000])] = true | _ => False end.
Proof. split; [apply plain_ok|]. vm_compute. reflexivity. Qed.
