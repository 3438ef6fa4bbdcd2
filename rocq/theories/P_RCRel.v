(** Property C64: relative rank error of RCSketch. *)
From Coq Require Import List Arith ZArith NArith Lia Bool Reals Lra.
From Verif Require Import Base Floats IEEE Digest Spec TDigest RCSketch RCProofs RCHist RCRank RCExpect RCTop RCQuery RCObs RCObs2 P_Parallel P_TDigest P_RC RCRelTop.
Set Implicit Arguments.
Local Open Scope nat_scope.

(** [n_le (ritems_of ops) v] is the true rank of [v], [rank_after] the sketch's rank.  None of the bounds mentions the number of
    items: the error at [v] is governed by the number of items at most [v]. *)

(** every run: |rank - R| <= R ((1 + 1/k)^h - 1), for any h with R (1 + 1/k)^h <= (bs/2) 2^h *)
Theorem C64_worst : forall F (FO : FloatOps F) (FL : FloatLaws F) lg n k (ops : list (rop F)) v bs h,
  proper lg n k ops -> default_mode ops -> few_levels n k ops -> calc_buffer_size lg n k = Ret bs ->
  n_le (ritems_of ops) v * (k + 1) ^ h <= bs / 2 * (2 * k) ^ h ->
  always (fun z => (Z.of_nat k ^ Z.of_nat h * Z.abs (z - Z.of_nat (n_le (ritems_of ops) v))
                    <= Z.of_nat (n_le (ritems_of ops) v) * ((Z.of_nat k + 1) ^ Z.of_nat h - Z.of_nat k ^ Z.of_nat h))%Z)
         (rank_after lg n k ops v).
Proof. exact @rank_relative. Qed.
Print Assumptions C64_worst.

(** mean square error at most R (2^h - 1) / k *)
Theorem C64_mean_square : forall F (FO : FloatOps F) (FL : FloatLaws F) lg n k (ops : list (rop F)) v bs h,
  proper lg n k ops -> default_mode ops -> few_levels n k ops -> calc_buffer_size lg n k = Ret bs ->
  n_le (ritems_of ops) v * (k + 1) ^ h <= bs / 2 * (2 * k) ^ h ->
  (INR k * expect (fun z => (IZR z - INR (n_le (ritems_of ops) v)) ^ 2) (rank_after lg n k ops v)
   <= (2 ^ h - 1) * INR (n_le (ritems_of ops) v))%R.
Proof. exact @rank_relative_square. Qed.
Print Assumptions C64_mean_square.

(** mean square error at most 2 (1 + 1/k)^h R^2 / (k bs/2) *)
Theorem C64_relative : forall F (FO : FloatOps F) (FL : FloatLaws F) lg n k (ops : list (rop F)) v bs h,
  proper lg n k ops -> default_mode ops -> few_levels n k ops -> calc_buffer_size lg n k = Ret bs ->
  n_le (ritems_of ops) v * (k + 1) ^ S h <= bs / 2 * (2 * k) ^ S h ->
  (INR k * INR (bs / 2) * expect (fun z => (IZR z - INR (n_le (ritems_of ops) v)) ^ 2) (rank_after lg n k ops v)
   <= 2 * INR (n_le (ritems_of ops) v) ^ 2 * (1 + / INR k) ^ h)%R.
Proof. exact @rank_relative_mse. Qed.
Print Assumptions C64_relative.

(** with h = k: at most 6 R^2 / (k bs/2), and the tail *)
Theorem C64_simple : forall F (FO : FloatOps F) (FL : FloatLaws F) lg n k (ops : list (rop F)) v bs,
  proper lg n k ops -> default_mode ops -> few_levels n k ops -> calc_buffer_size lg n k = Ret bs ->
  n_le (ritems_of ops) v * (k + 1) ^ S k <= bs / 2 * (2 * k) ^ S k ->
  (INR k * INR (bs / 2) * expect (fun z => (IZR z - INR (n_le (ritems_of ops) v)) ^ 2) (rank_after lg n k ops v)
   <= 6 * INR (n_le (ritems_of ops) v) ^ 2)%R.
Proof. exact @rank_relative_simple. Qed.
Print Assumptions C64_simple.

Theorem C64_tail : forall F (FO : FloatOps F) (FL : FloatLaws F) lg n k (ops : list (rop F)) v bs t,
  proper lg n k ops -> default_mode ops -> few_levels n k ops -> calc_buffer_size lg n k = Ret bs ->
  n_le (ritems_of ops) v * (k + 1) ^ S k <= bs / 2 * (2 * k) ^ S k ->
  (INR t ^ 2 * (INR k * INR (bs / 2)) *
     prob (fun z => Z.of_nat t <=? Z.abs (z - Z.of_nat (n_le (ritems_of ops) v)))%Z (rank_after lg n k ops v)
   <= 6 * INR (n_le (ritems_of ops) v) ^ 2)%R.
Proof. exact @rank_relative_tail. Qed.
Print Assumptions C64_tail.

(** 24 items, buffers of 16: 10 items at most the value need one halving, 11 need two, 15 three; the errors are real *)
Example C64_nonvacuous : calc_buffer_size lg64 24 2 = Ret 16 /\
  map (fun v => n_le (ritems_of ops24) (w64 v)) [10; 11; 15]%Z = [10; 11; 15] /\
  10 * (2 + 1) ^ 1 <= 16 / 2 * (2 * 2) ^ 1 /\ ~ 10 * (2 + 1) ^ 0 <= 16 / 2 * (2 * 2) ^ 0 /\
  11 * (2 + 1) ^ 2 <= 16 / 2 * (2 * 2) ^ 2 /\ 15 * (2 + 1) ^ 3 <= 16 / 2 * (2 * 2) ^ 3 /\
  map (fun v => rank24 ops24 v (repeat false 9)) [10; 11; 15]%Z = map Some [10; 12; 16]%Z /\
  map (fun v => rank24 ops24 v (repeat true 9)) [10; 11; 15]%Z = map Some [10; 10; 14]%Z.
Proof. vm_compute. repeat split; lia. Qed.
Example C64_bound : (2 * expect (fun z => (IZR z - 11) ^ 2) (rank_after lg64 24 2 ops24 (w64 11)) <= 33)%R.
Proof.
  destruct ops24_proper as (H1 & H2 & H3 & H4).
  assert (calc_buffer_size lg64 24 2 = Ret 16) as E by (vm_compute; reflexivity).
  pose proof (@C64_mean_square f64 f64_ops f64_laws lg64 24 2 ops24 (w64 11) 16 2 H1 H2 H3 E) as H.
  replace (n_le (ritems_of ops24) (w64 11)) with 11 in H by (vm_compute; reflexivity).
  assert (11 * (2 + 1) ^ 2 <= 16 / 2 * (2 * 2) ^ 2) as Hh by (vm_compute; lia). specialize (H Hh).
  rewrite (INR_IZR_INZ 11), (INR_IZR_INZ 2) in H. cbn [Z.of_nat Pos.of_succ_nat Pos.succ pow] in H. cbn [pow]. lra.
Qed.
