(** Property C99: the measurements of the accuracy experiments (examples/accuracy.rs). *)
From Coq Require Import List Arith ZArith NArith Lia Bool Permutation Reals Lra.
From Flocq Require Import Core.
From Verif Require Import Base Floats XReal IEEE Digest Spec FloatFacts History TDigest TDigestTop TDigestRange3 RCSketch RCProofs RCHist RCTop Util P_Parallel P_TDigest P_RC Demo P_Demo AccuracyEx.
Set Implicit Arguments.
Set Universe Polymorphism.
Unset Universe Minimization ToSet.

(** [usable], [a_quantile], [exact_value]: see C97.  [measured n x pt]: pt = (x, es) with n measurements es, all of them >= 1. *)

(** The plotted error max(1, 10^6 * relative error) is at least 1 and no NaN, whatever the two answers (also for NaN and infinities),
    and 1 for a right answer. *)
Theorem C99_floor : forall {F} {FO : FloatOps F} {FL : FloatLaws F} (a b : F), fle f1 (floored_error a b) = true.
Proof. exact @floored_ge. Qed.
Print Assumptions C99_floor.
Theorem C99_same : forall {F} {FO : FloatOps F} {FL : FloatLaws F} (x : F) r, (1000000 <= fint)%Z -> fval x = XFin r -> fval (floored_error x x) = XFin 1.
Proof. exact @floored_same. Qed.
Print Assumptions C99_same.

(** value_error_against_quantile, quantile_error_against_value: the RCSketch lines, for whatever datasets of N items the generator draws
    and whatever the coins: no panic, one point per quantile, n measurements each, none below 1.  The values of the second plot are
    the exact values of the first dataset. *)
Theorem C99_rc_values : forall {F} {FO : FloatOps F} {FL : FloatLaws F} (lg : F -> F) k N (gen : nat -> nat -> list F) n qs,
  rc_params lg N k -> Nat.even k = true -> (N.of_nat (N / k) <= u32_max)%N ->
  Forall a_quantile qs -> (forall i j, usable (gen i j) /\ length (gen i j) = N) ->
  always (fun pts => Forall2 (measured n) qs pts) (value_line rc_digest (demo_rc lg k) gen n qs).
Proof. exact @rc_value_line. Qed.
Print Assumptions C99_rc_values.
Theorem C99_rc_quantiles : forall {F} {FO : FloatOps F} {FL : FloatLaws F} (lg : F -> F) k N (first : list F) (gen : nat -> nat -> list F) n qs,
  rc_params lg N k -> (N.of_nat (N / k) <= u32_max)%N ->
  Forall a_quantile qs -> usable first -> (forall i j, usable (gen i j) /\ length (gen i j) = N) ->
  always (fun pts => exists vs, Forall2 (exact_value first) qs vs /\ Forall2 (measured n) vs pts) (quantile_line rc_digest (demo_rc lg k) first gen n qs).
Proof. exact @rc_quantile_line. Qed.
Print Assumptions C99_rc_quantiles.

(** The t-digest lines, for f32 (the type of the program) and f64; any scale functions, compression factor and chunk size. *)
Theorem C99_t_values_f32 : forall cfg : tcfg f32, lib_ok cfg -> forall chunk gen n qs, 1 <= chunk -> Forall a_quantile qs ->
  (forall i j, gen i j <> [] /\ Forall moderate32 (gen i j) /\ (Z.of_nat (length (gen i j)) <= 2 ^ 23)%Z) ->
  always (fun pts => Forall2 (measured n) qs pts) (value_line (t_digest cfg) (demo_t cfg chunk) gen n qs).
Proof. exact t_value_line32. Qed.
Print Assumptions C99_t_values_f32.
Theorem C99_t_quantiles_f32 : forall cfg : tcfg f32, lib_ok cfg -> forall chunk first gen n qs, 1 <= chunk -> Forall a_quantile qs -> usable first ->
  (forall i j, gen i j <> [] /\ Forall moderate32 (gen i j) /\ (Z.of_nat (length (gen i j)) <= 2 ^ 23)%Z) ->
  always (fun pts => exists vs, Forall2 (exact_value first) qs vs /\ Forall2 (measured n) vs pts) (quantile_line (t_digest cfg) (demo_t cfg chunk) first gen n qs).
Proof. exact t_quantile_line32. Qed.
Print Assumptions C99_t_quantiles_f32.
Theorem C99_t_values_f64 : forall cfg : tcfg f64, lib_ok cfg -> forall chunk gen n qs, 1 <= chunk -> Forall a_quantile qs ->
  (forall i j, gen i j <> [] /\ Forall moderate (gen i j) /\ (Z.of_nat (length (gen i j)) <= 2 ^ 52)%Z) ->
  always (fun pts => Forall2 (measured n) qs pts) (value_line (t_digest cfg) (demo_t cfg chunk) gen n qs).
Proof. exact t_value_line64. Qed.
Print Assumptions C99_t_values_f64.
Theorem C99_t_quantiles_f64 : forall cfg : tcfg f64, lib_ok cfg -> forall chunk first gen n qs, 1 <= chunk -> Forall a_quantile qs -> usable first ->
  (forall i j, gen i j <> [] /\ Forall moderate (gen i j) /\ (Z.of_nat (length (gen i j)) <= 2 ^ 52)%Z) ->
  always (fun pts => exists vs, Forall2 (exact_value first) qs vs /\ Forall2 (measured n) vs pts) (quantile_line (t_digest cfg) (demo_t cfg chunk) first gen n qs).
Proof. exact t_quantile_line64. Qed.
Print Assumptions C99_t_quantiles_f64.

(** determine_required_parameter: the test passes for a digest whose answers at the items of the dataset are within the tolerances
    ([P] is any invariant of its states), in particular for the exact digest itself. *)
Theorem C99_required_pass : forall {F} {FO : FloatOps F} {FL : FloatLaws F} (D : digest F) (P : dst D -> Prop) dataset s,
  (1000000 <= fint)%Z -> usable dataset -> P s ->
  (forall s v t, P s -> In v dataset -> In t required_tolerances ->
    always (fun r => P (fst r) /\ flt (absolute_error (snd r) (linear_est_q dataset v)) t = true) (d_est_q D s v)) ->
  always (fun b => b = true) (required_test D s dataset).
Proof. exact @required_pass. Qed.
Print Assumptions C99_required_pass.
Theorem C99_required_linear_f64 : forall dataset : list f64, usable dataset -> (2 * Z.of_nat (length dataset) <= 2 ^ 53)%Z ->
  always (fun b => b = true) (required_test (@linear_digest f64 _) dataset dataset).
Proof. exact required_linear64. Qed.
Print Assumptions C99_required_linear_f64.
Theorem C99_required_linear_f32 : forall dataset : list f32, usable dataset -> (2 * Z.of_nat (length dataset) <= 2 ^ 24)%Z ->
  always (fun b => b = true) (required_test (@linear_digest f32 _) dataset dataset).
Proof. exact required_linear32. Qed.
Print Assumptions C99_required_linear_f32.

(** But RCSketch fails it for every dataset of at most a million numbers (the experiment uses a million) as soon as its buffers are large
    enough to answer the first question exactly: its rank counts the value itself, the exact digest's does not, and one item in a
    million is not less than 10^-6 (exact arithmetic; a larger parameter only makes the premise true more often). *)
Theorem C99_required_rc : forall (lg : xr -> xr) k (dataset : list xr) bs, @usable xr _ FLm dataset -> length dataset <= Z.to_nat 1000000 ->
  @rc_params xr _ FLm lg (length dataset) k -> (N.of_nat (length dataset / k) <= u32_max)%N -> calc_buffer_size lg (length dataset) k = Ret bs ->
  (forall v, @exact_value xr _ FLm dataset (frat 1 100000) v -> n_le dataset v <= bs / 2) ->
  always (fun s => always (fun b => b = false) (required_test rc_digest s dataset)) (demo_rc lg k dataset).
Proof. exact rc_required_fails_exact. Qed.
Print Assumptions C99_required_rc.

(* ------------------------------------------------------------------ *)
Definition fail64 (m : M bool) (coins : list bool) : option bool := match run m coins with Returned b => Some b | _ => None end.
(** the 24 numbers of P_Demo: the exact digest passes, RCSketch with k = 2 fails, errors of 2 against 1 and of NaN *)
Example C99_nonvacuous : fail64 (required_test (@linear_digest f64 _) data24 data24) [] = Some true /\
  fail64 (do s <- demo_rc lg64 2 data24; required_test rc_digest s data24) (repeat false 40) = Some false /\
  feq (floored_error (w64 2) (w64 1)) (w64 1000000) = true /\ feq (floored_error fnan (w64 1)) (w64 1) = true.
Proof. vm_compute. auto. Qed.
Example C99_lines : match run (value_line rc_digest (demo_rc lg64 2) (fun _ _ => data24) 3 quant24) (repeat false 400) with
  | Returned pts => map (fun pt => length (snd pt)) pts = [3; 3; 3; 3; 3] /\ forallb (fun pt => forallb (fun e => fle (w64 1) e) (snd pt)) pts = true | _ => False end.
Proof. vm_compute. auto. Qed.
