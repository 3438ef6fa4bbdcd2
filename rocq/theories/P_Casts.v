(** Property C48, continued: the casts of section sizes to integers. *)
From Coq Require Import List ZArith NArith.
From Verif Require Import Base Floats IEEE RCSketch RC2 RC2Casts.

(** [x as usize] and [x as u32] on every f32: toward zero, saturating at 0 and the largest number of the type; NaN gives 0. *)
Theorem C48_as_usize : forall x : f32, Z.of_N (as_usize x) = saturate (2 ^ 64 - 1) (fval x).
Proof. exact as_usize_saturates. Qed.
Print Assumptions C48_as_usize.
Theorem C48_as_u32 : forall x : f32, Z.of_N (as_u32 x) = saturate (2 ^ 32 - 1) (fval x).
Proof. exact as_u32_saturates. Qed.
Print Assumptions C48_as_u32.
(** 6.5, -1, infinity, NaN *)
Example C48_casts_nonvacuous : map as_usize [frat 13 2; fofZ (-1); fpinf; fnan] = [6; 0; 18446744073709551615; 0]%N /\
  map as_u32 [frat 13 2; fofZ (-1); fpinf; fnan] = [6; 0; 4294967295; 0]%N.
Proof. vm_compute. split; reflexivity. Qed.
