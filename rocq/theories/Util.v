(** Model of /repo/src/util/mod.rs: [opt_accuracy_parameter], [sample_digest_accuracy] and the deterministic generators
    ([weighted_average] is in TDigest.v), and of the [OwnedSize] implementations of all the digests. *)
From Coq Require Import List Arith ZArith NArith Lia Bool.
From Verif Require Import Base Floats IEEE Digest TDigest.
Set Implicit Arguments.

(* ------------------------------------------------------------------ *)
(** * opt_accuracy_parameter (util/mod.rs:155-205) *)

Section Opt.
  Context {F : Type} {FO : FloatOps F}.

  (** The three closures together (util/mod.rs:177-183): [trial i j p] is what [test_func] answers in the [j]-th test of the
      [i]-th iteration of the loop, on a fresh dataset and digests filled with it, for the parameter [p]; [None] if one of the
      closures panics.  It may depend on [i] and [j]: datasets are usually random. *)
  Variable trial : nat -> nat -> F -> option bool.
  Variable test_count : nat.      (* a u32 *)
  Variable pass_ratio : f64.
  Variables max_param epsilon : F.

  (** util/mod.rs:175-184, the tests run in any order: a panic in any of them panics *)
  Fixpoint passes (l : list (option bool)) : M nat :=
    match l with
    | [] => Ret 0
    | None :: _ => Panic
    | Some b :: l' => do n <- passes l'; Ret (if b then S n else n)
    end.
  Definition pass_count (i : nat) (p : F) : M nat := passes (map (fun j => trial i j p) (seq 0 test_count)).

  (** util/mod.rs:194, in f64 whatever F is; a u32 or a count of at most 2^32 tests is converted without rounding *)
  Definition enough (pc : nat) : bool := fge (fdiv (fof_nat pc : f64) (fof_nat test_count)) pass_ratio.

  (** util/mod.rs:173 and 203 *)
  Definition middle (low high : F) : F := fdiv (fadd high low) f2.

  (** util/mod.rs:174-204; [i] counts the iterations, the [println!] is dropped; out of fuel is [Diverge] *)
  Fixpoint opt_loop (fuel i : nat) (low high current : F) : M F :=
    match fuel with
    | O => Diverge
    | S fuel' =>
        do pc <- pass_count i current;
        let high' := if enough pc then current else high in
        let low' := if enough pc then low else current in
        if flt (fsub high' low') epsilon then Ret high'
        else opt_loop fuel' (S i) low' high' (middle low' high')
    end.

  (** util/mod.rs:171-173 *)
  Definition opt_accuracy_parameter (fuel : nat) : M F := opt_loop fuel 0 f0 max_param (middle f0 max_param).
End Opt.

(* ------------------------------------------------------------------ *)
(** * sample_digest_accuracy (util/mod.rs:216-242) *)

Section Sample.
  Context {F : Type} {FO : FloatOps F}.
  Variable D : digest F.
  (** [gen j] is the dataset of the [j]-th test; [create j] the [j]-th call of [create_digest]; [test_func] takes a
      [&mut dyn Digest]: it is given the methods and the state *)
  Variable gen : nat -> list F.
  Variable create : nat -> list F -> M (dst D).
  Variable test_func : forall E : digest F, dst E -> M F.
  Variable error_func : F -> F -> F.

  (** util/mod.rs:233-239 *)
  Definition sample_one (j : nat) : M F :=
    let dataset := gen j in
    let linear := linear_add_buffer linear_new dataset in
    do d <- create j dataset;
    do measured <- test_func D d;
    do actual <- test_func (@linear_digest F FO) linear;
    Ret (error_func measured actual).

  (** util/mod.rs:231-241; always [Ok] *)
  Definition sample_digest_accuracy (test_count : nat) : M (list F) := mapM sample_one (seq 0 test_count).
End Sample.

(* ------------------------------------------------------------------ *)
(** * Generators *)

Section Gen.
  Context {F : Type} {FO : FloatOps F}.

  (** util/mod.rs:124-129; [size] is an i32, a negative one gives the empty range *)
  Definition gen_asc_vec (size : Z) : list F := map (fun i => fofZ (Z.of_nat i)) (seq 0 (Z.to_nat size)).

  (** util/mod.rs:134-144 *)
  Definition gen_asc_centroid_vec (size : Z) : list (centroid F) :=
    map (fun i => Cen (fofZ (Z.of_nat i)) f1) (seq 0 (Z.to_nat size)).

  (** util/mod.rs:78-84; [draw i] is the [i]-th sample of the uniform distribution (f64), [prob] is [increment_prob] *)
  Fixpoint blocks_loop (draw : nat -> f64) (n i : nat) (prob : f64) (val : F) : list F :=
    match n with
    | O => []
    | S n' =>
        let hit := fle (draw i) prob in
        let prob' := if hit then fmul prob (frat 98 100) else prob in
        let val' := if hit then fadd val f1 else val in
        val' :: blocks_loop draw n' (S i) prob' val'
    end.

  (** util/mod.rs:69-86 *)
  Definition gen_growing_blocks_vec (draw : nat -> f64) (size : Z) : list F :=
    blocks_loop draw (Z.to_nat size) 0 (frat 1 1000) f1.
End Gen.

(* ------------------------------------------------------------------ *)
(** * owned_size (traits.rs:36-41) *)

(** What a digest occupies, in bytes.  [sz_self] is [size_of] of its type; [sz_allocs] the sizes of all the heap allocations it
    owns, directly or through its fields, in any order; [sz_owned] what its [owned_size] returns.  Sizes are unbounded (a sum
    of [usize] sizes of memory actually allocated does not overflow). *)
Record sized := Sized { sz_self : N; sz_allocs : list N; sz_owned : N }.

Definition sumN (l : list N) : N := fold_right N.add 0%N l.

(** [owned_size() - size_of::<T>()]: a usize subtraction *)
Definition minus (a b : N) : M N := if (a <? b)%N then Panic else Ret (a - b)%N.

(** t_digest/t_digest.rs:38-40: [self] the size of the struct, [cen] of a centroid, [cap] the capacity of [centroids] *)
Definition size_tdigest (self cen cap : N) : sized :=
  Sized self [cen * cap]%N (self + cen * cap).

(** buffered_digest.rs:20-24: [f] the size of a float, [cap] the capacity of [buffer], [d] the inner digest *)
Definition size_buffered (self f cap : N) (d : sized) : M sized :=
  do rest <- minus (sz_owned d) (sz_self d);
  Ret (Sized self (f * cap :: sz_allocs d)%N (self + f * cap + rest)).

(** t_digest/par_t_digest.rs:29-33, the closure owning no memory: [dself] is the size of the inner TDigest *)
Definition size_par_tdigest (self f cap dself cen dcap : N) : M sized :=
  let d := size_tdigest dself cen dcap in
  do rest <- minus (sz_owned d) dself;
  Ret (Sized self (f * cap :: sz_allocs d)%N (self + f * cap + rest)).

(** sym_digest.rs:16-18 *)
Definition size_sym (self : N) (low high : sized) : sized :=
  Sized self (sz_allocs low ++ sz_allocs high) self.

(** parallel_digest.rs:106-110: [d] the size of the digest type, [cap] the capacity of [digests], [ds] the digests in it *)
Definition size_parallel (self d cap : N) (ds : list sized) : sized :=
  Sized self (d * cap :: flat_map sz_allocs ds)%N (self + d * cap + sumN (map sz_owned ds)).

(** rc_sketch/rc_sketch.rs:30-39: [v] the size of a Vec, [f] of a float, 4 that of a u32; [cap] the capacity of [buffers],
    [bufs] those of each buffer, [counters] that of [compaction_counters] *)
Definition size_rc (self v f cap : N) (bufs : list N) (counters : N) : sized :=
  Sized self (v * cap :: 4 * counters :: map (N.mul f) bufs)%N
    (self + v * cap + sumN (map (N.mul f) bufs) + 4 * counters).

(** rc_sketch/rc_sketch2.rs:32-42: three vectors of 4-byte elements, of capacities [counters], [sections] and [sizes] *)
Definition size_rc2 (self v f cap : N) (bufs : list N) (counters sections sizes : N) : sized :=
  Sized self (v * cap :: 4 * counters :: 4 * sections :: 4 * sizes :: map (N.mul f) bufs)%N
    (self + v * cap + sumN (map (N.mul f) bufs) + counters * (4 * 3 + 4)).
