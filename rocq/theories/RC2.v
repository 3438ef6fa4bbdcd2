(** RCSketch2: the growing relative compactor sketch (/repo/src/rc_sketch/rc_sketch2.rs). *)
From Coq Require Import List Arith ZArith NArith Lia Bool.
From Flocq Require Import Core BinarySingleNaN.
From Verif Require Import Base Floats IEEE Digest TDigest RCSketch.
Set Implicit Arguments.

(** [2.0.sqrt()] at type f32 (rc_sketch2.rs:119): IEEE square root, correctly rounded *)
Definition sqrt2_32 : f32 := Bsqrt mode_NE (fofZ 2 : f32).

(** [x as u32] for an f32 (rc_sketch2.rs:110): truncates and saturates, NaN and negative numbers give 0 *)
Definition as_u32 (x : f32) : N :=
  match ftoZ x with Some z => N.min u32_max (Z.to_N z) | None => if fgt x f0 then u32_max else 0%N end.
(** [x as usize] for an f32 (rc_sketch2.rs:133) *)
Definition as_usize (x : f32) : N :=
  match ftoZ x with Some z => Z.to_N z | None => if fgt x f0 then 18446744073709551615%N else 0%N end.

(** multiplication of u32s: overflow panics *)
Definition mul_u32 (a b : N) : M N := if (u32_max <? a * b)%N then Panic else Ret (a * b)%N.

(** [number_of_sections[h]] and [section_sizes[h]] (rc_sketch2.rs:23-25) *)
Definition sections := (N * f32)%type.

(** rc_sketch2.rs:109-111 [calc_buffer_size] *)
Definition capacity (s : sections) : M nat :=
  do a <- mul_u32 2 (fst s);
  do r <- mul_u32 a (as_u32 (snd s));
  Ret (N.to_nat r).

(** rc_sketch2.rs:116-121 [update_sections].  The power is computed in f32; 2^i is exact there (or infinite), so it is
    [fofZ] of the integer power.  The number of sections is at least 3, so the exponent is positive. *)
Definition update_sections (c : N) (s : sections) : M sections :=
  if fge (fofZ (Z.of_N c) : f32) (fofZ (2 ^ (Z.of_N (fst s) - 1)))
  then do ns <- mul_u32 (fst s) 2; Ret (ns, fdiv (snd s) sqrt2_32)
  else Ret s.

Section RC2.
  Context {F : Type} {FO : FloatOps F}.

  (** One level: [buffers[h]], [compaction_counters[h]] and its sections.  The four vectors are only pushed to together
      (rc_sketch2.rs:242-245), so the model keeps one list. *)
  Definition level2 := (@level F * sections)%type.

  (** rc_sketch2.rs:241-246 [grow] pushes this level; [k as f32] rounds *)
  Definition new_level (k : N) (b : list F) : level2 := ((b, 0%N), (3%N, fofZ (Z.of_N k))).

  (** rc_sketch2.rs:127-137 [get_compact_index]: the index and the new counter.  Subtraction and [+= 1] panic on overflow;
      an index past 2^64 panics as an overflow in the code, and in [split_off] here. *)
  Definition get_compact_index2 (l : level2) : M (nat * N) :=
    let '((b, c), (ns, ss)) := l in
    let t := N.of_nat (trailing_ones c) in
    if (ns <? t + 1)%N then Panic
    else do c' <- bump c;
         Ret (length b / 2 + N.to_nat (ns - (t + 1)) * N.to_nat (as_usize ss), c').

  (** the choice of rc_sketch2.rs:223-227; rc_sketch2.rs:143-145 [get_compact_index_fast] *)
  Definition compact_index2 (fast : bool) (l : level2) : M (nat * N) :=
    if fast then do cap <- capacity (snd l); Ret (cap / 2, snd (fst l)) else get_compact_index2 l.

  (** [self.buffers[h + 1].extend(output_items)] after growing if needed (rc_sketch2.rs:230-234), on the levels from h+1 on *)
  Definition extend_next (k : N) (up : list level2) (out : list F) : list level2 :=
    match up with
    | [] => [new_level k out]
    | ((b, c), s) :: up' => ((b ++ out, c), s) :: up'
    end.

  (** rc_sketch2.rs:220-236, the loop of [compress] from level h on; [n] is the number of levels left to visit (the range
      is fixed before the loop, so a level added by [grow] is not visited).  The state is [sketch_size] and the levels
      from h on.  [compact_buffer] (rc_sketch2.rs:253-285) is [rc_compact] plus [sketch_size -= upper.len()]. *)
  Fixpoint compress_from (k : N) (fast : bool) (m : method) (n : nat) (size : nat) (lv : list level2) : M (nat * list level2) :=
    match n with
    | O => Ret (size, lv)
    | S n' =>
        match lv with
        | [] => Panic
        | ((b, c), s) :: up =>
            do cap <- capacity s;
            if length b <? cap then
              do (size', up') <- compress_from k fast m n' size up;
              Ret (size', ((b, c), s) :: up')
            else
              do (i, c') <- compact_index2 fast ((b, c), s);
              do (lo, out) <- rc_compact b i m;
              if size <? length b - i then Panic
              else do s' <- update_sections c' s;
                   do (size', up') <- compress_from k fast m n' (size - (length b - i) + length out) (extend_next k up out);
                   Ret (size', ((lo, c'), s') :: up')
        end
    end.

  (** rc_sketch2.rs:211-215 [get_sketch_capacity] *)
  Fixpoint total_capacity (lv : list level2) : M nat :=
    match lv with
    | [] => Ret 0
    | (_, s) :: up => do c <- capacity s; do r <- total_capacity up; Ret (c + r)
    end.

  (** [self.buffers[0].extend(items)] *)
  Definition extend_bottom (lv : list level2) (items : list F) : M (list level2) :=
    match lv with [] => Panic | ((b, c), s) :: up => Ret (((b ++ items, c), s) :: up) end.

  (** the tail shared by rc_sketch2.rs:175-177 and 204-206: compress if the sketch is full *)
  Definition compress_if_full (k : N) (fast : bool) (m : method) (size : nat) (lv : list level2) : M (nat * list level2) :=
    do cap <- total_capacity lv;
    if size <? cap then Ret (size, lv) else compress_from k fast m (length lv) size lv.

  (** rc_sketch2.rs:171-178 [insert] *)
  Definition insert2 (k : N) (fast : bool) (m : method) (size : nat) (lv : list level2) (item : F) : M (nat * list level2) :=
    do lv' <- extend_bottom lv [item];
    compress_if_full k fast m (size + 1) lv'.

  (** rc_sketch2.rs:185-208 [insert_batch]; [items] is the part from [current_index] on.  [fuel] bounds the iterations
      and running out of it is [Diverge]. *)
  Fixpoint insert_batch (k : N) (fast : bool) (m : method) (fuel : nat) (size : nat) (lv : list level2) (items : list F)
    : M (nat * list level2) :=
    match items with
    | [] => Ret (size, lv)
    | _ =>
        match fuel with
        | O => Diverge
        | S fuel' =>
            do cap <- total_capacity lv;
            if cap <? size then Panic
            else let room := Nat.min (cap - size) (length items) in
                 do lv' <- extend_bottom lv (firstn room items);
                 do (size', lv'') <- compress_if_full k fast m (size + room) lv';
                 insert_batch k fast m fuel' size' lv'' (skipn room items)
        end
    end.

  (** rc_sketch2.rs:7-26 [RCSketch2]; [count : u64] as an unbounded Z *)
  Record rc2 := mkRC2 {
    r2_levels : list level2;
    r2_size : nat;
    r2_k : N;
    r2_count : Z;
  }.

  (** rc_sketch2.rs:92-104 [new] *)
  Definition rc2_new (k : N) : rc2 := mkRC2 [new_level k []] 0 k 0.

  (** rc_sketch2.rs:49-53 [add] *)
  Definition rc2_add (s : rc2) (item : F) : M rc2 :=
    do (size, lv) <- insert2 (r2_k s) false Default (r2_size s) (r2_levels s) item;
    Ret (mkRC2 lv size (r2_k s) (r2_count s + 1)).

  (** [extra]: how much more fuel than one iteration per item the loop of [insert_batch] gets.  Every theorem holds for
      any [extra]; for 4 <= k <= 2^24 none is needed ([RC2Proofs.batch_always]). *)
  Variable extra : nat.

  (** rc_sketch2.rs:154-164 [add_buffer_custom] *)
  Definition rc2_add_buffer_custom (s : rc2) (items : list F) (fast : bool) (m : method) : M rc2 :=
    do (size, lv) <- insert_batch (r2_k s) fast m (extra + length items) (r2_size s) (r2_levels s) items;
    Ret (mkRC2 lv size (r2_k s) (r2_count s + Z.of_nat (length items))).

  (** rc_sketch2.rs:55-60 [add_buffer] *)
  Definition rc2_add_buffer (s : rc2) (items : list F) : M rc2 := rc2_add_buffer_custom s items false Default.

  (** rc_sketch2.rs:147-149 [add_buffer_fast] *)
  Definition rc2_add_buffer_fast (s : rc2) (items : list F) : M rc2 := rc2_add_buffer_custom s items true Default.

  (** The queries are those of RCSketch, token for token (rc_sketch2.rs:62-77, 290-312 and rc_sketch.rs:61-76, 279-299), so
      they are modelled by the same functions on the buffers and the count. *)
  Definition as_rc (s : rc2) : rc F := mkRC (map fst (r2_levels s)) 0 0 0 (r2_count s).
  Definition interpolate_rank2 (s : rc2) (v : F) : M Z := interpolate_rank (as_rc s) v.
  Definition rc2_est_quantile (s : rc2) (v : F) : M F := rc_est_quantile (as_rc s) v.
  Definition rc2_est_value (s : rc2) (q : F) : M F := rc_est_value (as_rc s) q.

  (** rc_sketch2.rs:45-82: [impl Digest for RCSketch2] *)
  #[universes(polymorphic)] Definition rc2_digest : digest F := {|
    dst := rc2;
    d_add := rc2_add;
    d_add_buffer := rc2_add_buffer;
    d_est_q := fun s v => do a <- rc2_est_quantile s v; Ret (s, a);
    d_est_v := fun s q => do a <- rc2_est_value s q; Ret (s, a);
    d_count := fun s => Ret (r2_count s);
  |}.

  (** a call that inserts items through the public interface *)
  Definition rstep2 (s : rc2) (o : rop F) : M rc2 :=
    match o with
    | RAdd x => rc2_add s x
    | RBuf l => rc2_add_buffer s l
    | RCustom l fast m => rc2_add_buffer_custom s l fast m
    end.
  Definition rexec2 (s : rc2) (ops : list (rop F)) : M rc2 := foldM rstep2 s ops.
End RC2.
Arguments rc2 F : clear implicits.
