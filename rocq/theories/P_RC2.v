(** Properties C48-C51 and C57-C60: RCSketch2. *)
From Coq Require Import List Arith ZArith NArith Lia Bool Permutation Sorted Reals Lra.
From Flocq Require Import Core BinarySingleNaN.
From Verif Require Import Base Floats XReal IEEE Digest Spec FloatFacts History TDigest RCSketch RCProofs RCHist RCRank RCExpect RCTop RCQuery RCObs RCObs2 P_Parallel P_TDigest P_RC RC2 RC2Sections RC2Proofs RC2Hist RC2Rank RC2Top.
Set Implicit Arguments.
Local Open Scope nat_scope.

(** [proper2 k ops]: 4 <= k <= 2^24, and either fast compaction only or at most [min_sec k] * (2^32 - 1) items, where
    [min_sec k] is k/4 up to rounding ([min_sec_ge]: at least 1, so 2^32 - 1 items are always allowed).
    [few2 k ops]: at most k * 2^28 items; for k >= 8 at most k * 2^39, or any number without fast compaction.
    [extra] is fuel beyond one loop iteration per item: the theorems hold for any. *)

Definition up_to (n : nat) : list Z := map Z.of_nat (seq 1 n).
(** 300 numbers in descending order into a sketch with k = 8 *)
Definition ops300 : list (rop f64) := bufs (rev (map (fun z => z + 200)%Z (up_to 100))) ++ adds (rev (up_to 200)).
Lemma sec8 : min_sec 8 = 2. Proof. vm_compute. reflexivity. Qed.
Example ops300_proper : proper2 8 ops300 /\ few2 8 ops300 /\ default_mode ops300 /\ no_nan (ritems_of ops300).
Proof.
  split; [|split; [|split]].
  - split; [split; vm_compute; discriminate|]. right. rewrite sec8. vm_compute. discriminate.
  - left. left. vm_compute. discriminate.
  - apply Forall_forall. intros o Ho. unfold ops300, bufs, adds in Ho. apply in_app_iff in Ho as [[<-|[]]|Ho]; [split; reflexivity|].
    apply in_map_iff in Ho as (z & <- & _). split; reflexivity.
  - apply numbers_ok. vm_compute. reflexivity.
Qed.
Definition shape (s : rc2 f64) : list nat * list N := (map (fun l => length (fst (fst l))) (r2_levels s), map (fun l => snd (fst l)) (r2_levels s)).

Lemma over_capacity (m : M (rc2 f64)) coins :
  match run m coins with Returned s => r2_size s = 165 /\ total_capacity (r2_levels s) = Ret 156 | _ => False end ->
  match run m coins with Returned s => match total_capacity (r2_levels s) with Ret c => c < r2_size s | _ => False end | _ => False end.
Proof. destruct (run m coins); auto. intros [E1 E2]. rewrite E1, E2. lia. Qed.

(* ------------------------------------------------------------------ *)
(** * C48 *)
(** full claim: also for every 1 <= k < 4 and k > 2^24.  Refuted below: k = 1, k = 2 and k > 715827872 (and k = 0 never returns); open: k = 3 and
    2^24 < k <= 715827872 *)
Theorem C48_within_partial : forall F (FO : FloatOps F) (FL : FloatLaws F) extra k (ops : list (rop F)),
  proper2 k ops -> default_method ops -> no_nan (ritems_of ops) ->
  always (fun s => r2_count s = Z.of_nat (length (ritems_of ops))) (rc2_run extra k ops).
Proof. exact (fun F FO FL extra k ops Hp Hm Hn => @always_mono _ _ _ _ (@run2_always F FO FL extra k ops Hp Hm Hn) (fun s H => proj1 H)). Qed.
Print Assumptions C48_within_partial.
(** through the [Digest] interface with queries anywhere *)
Theorem C48_digest_partial : forall F (FO : FloatOps F) (FL : FloatLaws F) extra k (ops : list (op F)),
  k_ok k -> ok_hist (allowed2 k) [] ops ->
  always (fun r => r2_count (fst r) = Z.of_nat (length (items_of ops))) (exec (rc2_digest extra) (rc2_new k) ops).
Proof. exact @digest2_always. Qed.
Print Assumptions C48_digest_partial.
(** k = 1: 60 [add]s can overfill the sketch, and then [add_buffer] panics on its assertion *)
Theorem C48_k1_refuted : exists (l : list Z) coins,
  match run (rc2_run 0 1 (adds l)) coins with Returned s => r2_size s = 14 /\ total_capacity (r2_levels s) = Ret 12 | _ => False end /\
  match run (rc2_run 0 1 (adds l ++ bufs [0%Z])) coins with Panicked => length l = 60 | _ => False end.
Proof. exists (up_to 60), (repeat false 400). split; vm_compute; [split; reflexivity|reflexivity]. Qed.
Print Assumptions C48_k1_refuted.
(** ... and 340 [add]s can create more than 64 levels: the shift in [interpolate_rank] overflows *)
Theorem C48_k1_rank_refuted : forall extra, exists (l : list Z) coins,
  match run (rc2_run extra 1 (adds l)) coins with Returned s => 64 < length (r2_levels s) | _ => False end /\
  match run (rank_after2 extra 1 (adds l) (w64 0)) coins with Panicked => length l = 340 | _ => False end.
Proof. intros extra. exists (up_to 340), (flat_map (fun _ => repeat false 100) (seq 0 300)). split; vm_compute; [lia|reflexivity]. Qed.
Print Assumptions C48_k1_rank_refuted.
(** k = 2: the 2048th compaction of the bottom level makes its section size, and so its capacity, 0: the sketch is over its capacity, and
    [add_buffer] panics on its assertion after 20361 items *)
Theorem C48_k2_refuted : exists (l : list Z) coins,
  match run (rc2_run 0 2 (bufs l)) coins with Returned s => r2_size s = 165 /\ total_capacity (r2_levels s) = Ret 156 | _ => False end /\
  match run (rc2_run 0 2 (bufs (l ++ [1%Z]))) coins with Panicked => True | _ => False end.
Proof. exists (repeat 1%Z (Z.to_nat 20361)), (repeat true (Z.to_nat 7000)). split; vm_compute; [split; reflexivity|exact I]. Qed.
Print Assumptions C48_k2_refuted.
(** k > 715827872: the buffer size 6 (k as f32) overflows u32 at the first insertion *)
Theorem C48_large_k_refuted : forall F (FO : FloatOps F) extra k (o : rop F), (715827872 < k < 2 ^ 64)%N -> ritems o <> [] ->
  rstep2 extra (rc2_new k) o = Panic.
Proof. exact @huge_panics. Qed.
Print Assumptions C48_large_k_refuted.
(** the bound is the least: 715827872 rounds down to 715827840 *)
Example C48_large_k_least : rc2_run 0 715827873 (adds [1%Z]) = Panic /\
  (6 * as_u32 (fofZ 715827872) = 4294967040 /\ u32_max = 4294967295)%N.
Proof. split; [|split]; vm_compute; reflexivity. Qed.
(** k = 0: [add_buffer] of anything never returns, whatever the fuel *)
Theorem C48_k0_refuted : forall F (FO : FloatOps F) extra (x : F) l, whenever (fun _ => False) (rc2_add_buffer extra (rc2_new 0) (x :: l)).
Proof. exact @zero_never_returns. Qed.
Print Assumptions C48_k0_refuted.
Example C48_nonvacuous : match run (rc2_run 0 8 ops300) (repeat true 20) with
  | Returned s => shape s = ([68; 48; 32], [8; 4; 0]%N) /\ r2_count s = 300%Z | _ => False end.
Proof. vm_compute. split; reflexivity. Qed.

Example C48_nonvacuous_k4 : proper2 4 ops300 /\ few2 4 ops300 /\
  match run (rc2_run 0 4 ops300) (repeat true 60) with
  | Returned s => shape s = ([28; 18; 21; 14], [20; 16; 4; 0]%N) /\ r2_count s = 300%Z | _ => False end.
Proof.
  split; [|split].
  - split; [split; vm_compute; discriminate|]. right. vm_compute. discriminate.
  - left. left. vm_compute. discriminate.
  - vm_compute. split; reflexivity.
Qed.

(* ------------------------------------------------------------------ *)
(** * C49 *)
(** [sketch_size] is exact for every k, compaction mode and method, whenever the calls return *)
Theorem C49_size : forall F (FO : FloatOps F) (FL : FloatLaws F) extra k (ops : list (rop F)),
  whenever (fun s => r2_size s = length (held_items s) /\ r2_count s = Z.of_nat (length (ritems_of ops))) (rc2_run extra k ops).
Proof. exact @size_is_held. Qed.
Print Assumptions C49_size.
(** after every call (every history [ops]) it is below the sketch capacity; full claim: for every k (k = 1 and k = 2 refuted below) *)
Theorem C49_capacity_partial : forall F (FO : FloatOps F) (FL : FloatLaws F) extra k (ops : list (rop F)),
  proper2 k ops -> default_method ops -> no_nan (ritems_of ops) ->
  always (fun s => exists cp, total_capacity (r2_levels s) = Ret cp /\ r2_size s < cp) (rc2_run extra k ops).
Proof. exact (fun F FO FL extra k ops Hp Hm Hn => @always_mono _ _ _ _ (@run2_always F FO FL extra k ops Hp Hm Hn)
  (fun s H => proj2 (proj2 (proj2 H)))). Qed.
Print Assumptions C49_capacity_partial.
Theorem C49_k1_refuted : forall extra, exists (l : list Z) coins,
  match run (rc2_run extra 1 (adds l)) coins with
  | Returned s => total_capacity (r2_levels s) = Ret 12 /\ 12 < r2_size s | _ => False end.
Proof. intros extra. exists (up_to 60), (repeat false 400). vm_compute. split; [reflexivity|lia]. Qed.
Print Assumptions C49_k1_refuted.
Theorem C49_k2_refuted : exists (l : list Z) coins,
  match run (rc2_run 0 2 (bufs l)) coins with
  | Returned s => match total_capacity (r2_levels s) with Ret c => c < r2_size s | _ => False end | _ => False end.
Proof. exact (match C48_k2_refuted with ex_intro _ l (ex_intro _ coins (conj H _)) => ex_intro _ l (ex_intro _ coins (over_capacity (rc2_run 0 2 (bufs l)) coins H)) end). Qed.
Print Assumptions C49_k2_refuted.
Example C49_nonvacuous : match run (rc2_run 0 8 ops300) (repeat false 20) with
  | Returned s => (r2_size s, total_capacity (r2_levels s)) = (156, Ret 168) | _ => False end.
Proof. vm_compute. reflexivity. Qed.

(* ------------------------------------------------------------------ *)
(** * C50 *)
Theorem C50_unbiased : forall F (FO : FloatOps F) (FL : FloatLaws F) extra k (ops : list (rop F)) v,
  proper2 k ops -> few2 k ops -> default_method ops -> no_nan (ritems_of ops) ->
  expect IZR (rank_after2 extra k ops v) = INR (n_le (ritems_of ops) v).
Proof. exact @rank2_unbiased. Qed.
Print Assumptions C50_unbiased.
(** individual outcomes differ: rank of 250 among 1..300 *)
Definition rank300 (v : Z) (coins : list bool) : option Z :=
  match run (rank_after2 0 8 ops300 (w64 v)) coins with Returned z => Some z | _ => None end.
Example C50_nonvacuous : rank300 250 (repeat true 20) = Some 244%Z /\ rank300 250 (repeat false 20) = Some 257%Z.
Proof. vm_compute. split; reflexivity. Qed.

(* ------------------------------------------------------------------ *)
(** * C51 *)
(** at least the smallest 3 k = (half the initial buffer size) items are exact *)
Theorem C51_smallest : forall F (FO : FloatOps F) (FL : FloatLaws F) extra k (ops : list (rop F)) v,
  proper2 k ops -> few2 k ops -> default_method ops -> no_nan (ritems_of ops) ->
  n_le (ritems_of ops) v <= 3 * N.to_nat k ->
  always (fun z => z = Z.of_nat (n_le (ritems_of ops) v)) (rank_after2 extra k ops v).
Proof. exact @rank2_smallest. Qed.
Print Assumptions C51_smallest.
(** k = 1: not even the second smallest of 1..40 is exact *)
Theorem C51_k1_refuted : forall extra, exists (l : list Z) coins,
  n_le (ritems_of (adds l)) (w64 2) <= 3 * 1 /\ n_le (ritems_of (adds l)) (w64 2) = 2 /\ match run (rank_after2 extra 1 (adds l) (w64 2)) coins with Returned z => z = 1%Z | _ => False end.
Proof. intros extra. exists (up_to 40), (repeat true 400). split; [|split]; vm_compute; [lia|reflexivity|reflexivity]. Qed.
Print Assumptions C51_k1_refuted.
Example C51_nonvacuous : rank300 24 (repeat true 20) = Some 24%Z /\ rank300 24 (repeat false 20) = Some 24%Z.
Proof. vm_compute. split; reflexivity. Qed.

(* ------------------------------------------------------------------ *)
(** * C57 *)
(** by the counters of the sketch: 2^i for each compaction of level i; any k, whenever the calls return *)
Theorem C57_counters : forall F (FO : FloatOps F) (FL : FloatLaws F) extra k (ops : list (rop F)) v, default_mode ops ->
  whenever (fun s => (Z.abs (Z.of_nat (rank2 (r2_levels s) v) - Z.of_nat (n_le (ritems_of ops) v))
                      <= Z.of_nat (lv_compactions (plain (r2_levels s))))%Z) (rc2_run extra k ops).
Proof. exact @rank2_error_state. Qed.
Print Assumptions C57_counters.
(** explicitly, for any odd o <= min_sec k + 1 and any h with N < 6 k (2 o / (o + 1))^h (so there are at most h + 1 levels):
    error <= ((1 + 1/o)^(h+1) - 1) * o * N / min_sec k, about (h + 1) N / (k/4) when o is about k/4 *)
Theorem C57_error : forall F (FO : FloatOps F) (FL : FloatLaws F) extra k (ops : list (rop F)) v o h,
  proper2 k ops -> few2 k ops -> default_mode ops -> no_nan (ritems_of ops) ->
  Nat.odd o = true -> o <= min_sec k + 1 ->
  (o + 1) ^ h * length (ritems_of ops) < 6 * N.to_nat k * (2 * o) ^ h ->
  always (fun z => (Z.of_nat (min_sec k) * Z.abs (z - Z.of_nat (n_le (ritems_of ops) v)) * Z.of_nat o ^ Z.of_nat (h + 1)
                    <= Z.of_nat o * (Z.of_nat (o + 1) ^ Z.of_nat (h + 1) - Z.of_nat o ^ Z.of_nat (h + 1)) * Z.of_nat (length (ritems_of ops)))%Z)
         (rank_after2 extra k ops v).
Proof. exact @rank2_error. Qed.
Print Assumptions C57_error.
Theorem C57_levels : forall F (FO : FloatOps F) (FL : FloatLaws F) extra k (ops : list (rop F)) o h,
  proper2 k ops -> default_method ops -> no_nan (ritems_of ops) -> Nat.odd o = true -> o <= min_sec k + 1 ->
  (o + 1) ^ h * length (ritems_of ops) < 6 * N.to_nat k * (2 * o) ^ h ->
  always (fun s => length (r2_levels s) <= h + 1) (rc2_run extra k ops).
Proof. exact @levels2. Qed.
Print Assumptions C57_levels.
Example C57_nonvacuous : 4 ^ 5 * 300 < 6 * 8 * 6 ^ 5 /\ length (ritems_of ops300) = 300 /\ 3 <= min_sec 8 + 1.
Proof. rewrite sec8. split; [apply Nat.ltb_lt; vm_compute; reflexivity|]. split; [vm_compute; reflexivity|lia]. Qed.

(* ------------------------------------------------------------------ *)
(** * C58 *)
Theorem C58_variance : forall F (FO : FloatOps F) (FL : FloatLaws F) extra k (ops : list (rop F)) v,
  proper2 k ops -> few2 k ops -> default_mode ops -> no_nan (ritems_of ops) ->
  (expect (fun z => (IZR z - INR (n_le (ritems_of ops) v)) ^ 2) (rank_after2 extra k ops v)
   <= expect (fun s => INR (lv_compactions2 (plain (r2_levels s)))) (rc2_run extra k ops))%R.
Proof. exact @rank2_variance. Qed.
Print Assumptions C58_variance.
Example C58_nonvacuous : match run (rc2_run 0 8 ops300) (repeat true 20) with
  | Returned s => lv_compactions2 (plain (r2_levels s)) = 8 + 4 * 4 + 16 * 0 | _ => False end.
Proof. vm_compute. reflexivity. Qed.

(* ------------------------------------------------------------------ *)
(** * C59 *)
(** 120 items, k = 8: est_quantile_at_value of the largest item is 121/120 > 1, or 119/120 < 1 for other coins *)
Theorem C59_quantile_refuted : exists (l : list Z),
  match run (quantile_after2 0 8 (adds l) (w64 120)) (repeat false 20) with Returned a => fgt a (w64 1) && same64 a (fdiv (w64 121) (w64 120)) | _ => false end = true /\
  match run (quantile_after2 0 8 (adds l) (w64 120)) (repeat true 20) with Returned a => flt a (w64 1) && same64 a (fdiv (w64 119) (w64 120)) | _ => false end = true /\
  forallb (fun z => (z <=? 120)%Z) l = true /\ length l = 120.
Proof. exists (up_to 120). split; [|split; [|split]]; vm_compute; reflexivity. Qed.
Print Assumptions C59_quantile_refuted.

(* ------------------------------------------------------------------ *)
(** * C60 *)
Theorem C60_held : forall F (FO : FloatOps F) (FL : FloatLaws F) extra k (ops : list (rop F)),
  proper2 k ops -> default_method ops -> no_nan (ritems_of ops) ->
  always (fun s => forall x, In x (held_items s) -> In x (ritems_of ops)) (rc2_run extra k ops).
Proof. exact (fun F FO FL extra k ops Hp Hm Hn => @always_mono _ _ _ _ (@run2_always F FO FL extra k ops Hp Hm Hn)
  (fun s H => proj1 (proj2 (proj2 H)))). Qed.
Print Assumptions C60_held.
(** [fewer]: at most k * 2^14 items, or k * 2^20 for k >= 8: so at most 31 levels *)
Theorem C60_value : forall F (FO : FloatOps F) (FL : FloatLaws F) extra k (ops : list (rop F)) q,
  proper2 k ops -> default_method ops -> no_nan (ritems_of ops) -> ritems_of ops <> [] ->
  fewer k (length (ritems_of ops)) ->
  always (fun x => In x (ritems_of ops)) (value_after2 extra k ops q).
Proof. exact @value2_held. Qed.
Print Assumptions C60_value.
(** averaging, or any mixture of methods *)
Theorem C60_average : forall F (FO : FloatOps F) (FL : FloatLaws F) extra k (ops : list (rop F)) a b,
  proper2 k ops -> Forall (within a b) (ritems_of ops) ->
  fexact a -> fexact b -> fexact (2 * a) -> fexact (2 * b) ->
  always (fun s => r2_count s = Z.of_nat (length (ritems_of ops)) /\ Forall (within a b) (held_items s)) (rc2_run extra k ops).
Proof. exact @held_within2. Qed.
Print Assumptions C60_average.
Example C60_nonvacuous : match run (do s <- rc2_run 0 8 ops300; mapM (fun q => rc2_est_value s (fdiv (w64 q) (w64 300))) [0; 23; 150; 299]%Z) (repeat true 20) with
  | Returned l => all_same l (map w64 [1; 24; 154; 298]%Z) | _ => false end = true.
Proof. vm_compute. reflexivity. Qed.
