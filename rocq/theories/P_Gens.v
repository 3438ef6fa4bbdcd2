(** Property C88: the random generators of util/mod.rs. *)
From Coq Require Import List Arith ZArith Lia Bool Reals Lra.
From Flocq Require Import Core BinarySingleNaN.
From Verif Require Import Base Floats XReal IEEE Digest Spec FloatFacts TDigest ScaleFunctions TDigestTop Gens P_Parallel P_TDigest.
Set Implicit Arguments.
Local Open Scope nat_scope.

(** [draw i]: the i-th sample; [uniform_in a b draw]: samples of Uniform(a..b), in [a, b).  [conv_ok from64]: the conversion F::from rounds
    to nearest and succeeds where the result is finite; proved of f64 and f32. *)
Theorem C88_conv : conv_ok f64_from /\ conv_ok f32_from.
Proof. exact (conj f64_from_ok f32_from_ok). Qed.
Print Assumptions C88_conv.
(** the x-th entry is the rounded i-th sample and lies in [a, b] *)
Theorem C88_sampled : forall F (FO : FloatOps F) (FL : FloatLaws F) a b d (x : F), sampled a b d x <->
  exists r r', fval d = XFin r /\ fval x = frnd (F := F) r /\ fval x = XFin r' /\ (a <= r' <= b)%R.
Proof. exact (fun F FO FL a b d x => iff_refl _). Qed.
Print Assumptions C88_sampled.
Theorem C88_uniform : forall F (FO : FloatOps F) (FL : FloatLaws F) from64, conv_ok from64 -> forall draw size, uniform_in 0 1001 draw ->
  always (fun l => length l = Z.to_nat size /\ forall i x, nth_error l i = Some x -> sampled 0 1001 (draw i) x) (gen_uniform_vec from64 draw size).
Proof. exact @uniform_returns. Qed.
Print Assumptions C88_uniform.
Theorem C88_tan : forall F (FO : FloatOps F) (FL : FloatLaws F) from64, conv_ok from64 -> forall (tan : f64 -> f64) draw size, uniform_in (-20) 20 draw ->
  (forall x r, fval x = XFin r -> (-20 <= r < 20)%R -> exists t, fval (tan x) = XFin t) ->
  whenever (fun l => length l = Z.to_nat size /\ forall i x, nth_error l i = Some x -> exists t, fval (tan (draw i)) = XFin t /\ fval x = frnd (F := F) t)
    (gen_uniform_tan_vec from64 draw tan size).
Proof. exact @tan_returns. Qed.
Print Assumptions C88_tan.
Theorem C88_exp : forall F (FO : FloatOps F) (FL : FloatLaws F) from64, conv_ok from64 -> forall exp_new draw size (lambda : F) b,
  exp_new lambda = Some draw -> exp_draws draw -> (b < 2 ^ 53)%Z -> (b < fint (F := F))%Z -> (forall i r, fval (draw i) = XFin r -> (r <= IZR b)%R) ->
  always (fun l => length l = Z.to_nat size /\ forall i x, nth_error l i = Some x -> sampled (IZR (- b - 1)) (-1) (fsub (fneg (draw i)) f1) x)
    (gen_uniform_exp_vec from64 exp_new size lambda).
Proof. exact @exp_returns. Qed.
Print Assumptions C88_exp.
Theorem C88_exp_panics : forall F (from64 : f64 -> option F) exp_new size (lambda : F), exp_new lambda = None ->
  gen_uniform_exp_vec from64 exp_new size lambda = Panic.
Proof. exact @exp_panics. Qed.
Print Assumptions C88_exp_panics.
Theorem C88_centroids : forall F (FO : FloatOps F) (FL : FloatLaws F) from64, conv_ok from64 -> forall draw size, uniform_in 0 1001 draw ->
  always (fun l => length l = Z.to_nat size /\ forall i c, nth_error l i = Some c -> sampled 0 1001 (draw i) (mean c) /\ weight c = f1)
    (gen_uniform_centroid_vec from64 draw size).
Proof. exact @centroid_returns. Qed.
Print Assumptions C88_centroids.
Theorem C88_random_weight : forall F (FO : FloatOps F) (FL : FloatLaws F) from64, conv_ok from64 -> forall draw size, uniform_in 0 1001 draw ->
  always (fun l => length l = Z.to_nat size /\ forall i c, nth_error l i = Some c ->
    sampled 0 1001 (draw (2 * i)) (mean c) /\ sampled 0 1001 (draw (2 * i + 1)) (weight c)) (gen_uniform_centroid_random_weight_vec from64 draw size).
Proof. exact @random_weight_returns. Qed.
Print Assumptions C88_random_weight.

(** not always below 1001 as f32: the f64 number 1001 - 2^-20 rounds to 1001 *)
Theorem C88_below_refuted : exists draw, uniform_in 0 1001 draw /\
  match gen_uniform_vec f32_from draw 1 with Ret [x] => feq x (fofZ 1001) | _ => false end = true.
Proof.
  exists (fun _ => frat 1049624575 1048576). split; [|vm_compute; reflexivity]. intros i. exists (1049624575 / 1048576)%R. split; [|lra].
  assert (fval (frat 1049624575 1048576 : f64) = frnd (F := f64) (IZR 1049624575 / IZR 1048576)) as E by (apply (frat_val (F := f64)); vm_compute; discriminate).
  rewrite E. apply frnd_exact.
  replace (IZR 1049624575 / IZR 1048576)%R with (F2R (Float radix2 1049624575 (-20))) by (unfold F2R; cbn -[IZR]; lra).
  split; [apply generic_format_FLT; exists (Float radix2 1049624575 (-20)); [reflexivity|cbn; lia|cbn; lia]|].
  unfold F2R. cbn -[IZR bpow]. rewrite Rabs_pos_eq by (cbn -[IZR]; lra). apply Rlt_trans with (IZR 2048); [cbn -[IZR]; lra|].
  apply Rlt_le_trans with (bpow radix2 12); [cbn -[IZR]; lra|apply bpow_le; lia].
Qed.
Print Assumptions C88_below_refuted.
(** the random weights are not always positive; a TDigest given such a centroid answers NaN, and the next insertion panics *)
Theorem C88_weight_refuted : exists draw, uniform_in 0 1001 draw /\
  match gen_uniform_centroid_random_weight_vec f64_from draw 1 with
  | Ret cs => match cs with [c] => feq (weight c) f0 | _ => false end = true /\
     match add_centroid_buffer (plain k0 inv_k0 (w64 10)) td_new cs with
     | Ret s => existsb (fun c => fisnan (mean c)) (t_centroids s) = true /\ td_add (plain k0 inv_k0 (w64 10)) s (w64 1) = Panic
     | _ => False end
  | _ => False end.
Proof.
  exists (fun _ => f0). split; [|vm_compute; repeat split; reflexivity]. intros i. exists 0%R. split; [apply fval_f0|lra].
Qed.
Print Assumptions C88_weight_refuted.
Example C88_nonvacuous : uniform_in 0 1001 (fun _ => f1) /\ exp_draws (fun _ => f1) /\
  match gen_uniform_exp_vec f32_from (fun _ => Some (fun i => fofZ (Z.of_nat i))) 3 (fofZ 1) with
  | Ret l => forallb (fun p => feq (fst p) (fofZ (snd p))) (combine l [-1; -2; -3]%Z) && (length l =? 3) | _ => false end = true /\
  gen_uniform_vec f32_from (fun _ => f1) (-5) = Ret [].
Proof.
  split; [intros i; exists 1%R; split; [apply fval_f1|lra]|]. split; [intros i; exists 1%R; split; [apply fval_f1|lra]|].
  split; vm_compute; reflexivity.
Qed.
