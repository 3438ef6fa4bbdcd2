(** RCSketch: the relative compactor sketch (/repo/src/rc_sketch/rc_sketch.rs). *)
From Coq Require Import List Arith ZArith NArith Lia Bool.
From Verif Require Import Base Floats Digest TDigest.
Set Implicit Arguments.

(** compaction_method.rs:1-5 *)
Inductive method := Default | AverageNeighbour.

(** [u32::trailing_ones]: the number of consecutive one bits from the least significant end *)
Fixpoint pos_trailing_ones (p : positive) : nat :=
  match p with xI p' => S (pos_trailing_ones p') | xO _ => 0 | xH => 1 end.
Definition trailing_ones (c : N) : nat := match c with N0 => 0 | Npos p => pos_trailing_ones p end.

(** the largest [u32] *)
Definition u32_max : N := 4294967295.

(** [c += 1] on a [u32]: overflow panics *)
Definition bump (c : N) : M N := if (c =? u32_max)%N then Panic else Ret (c + 1)%N.

(** [it.enumerate().filter(|(pos, _)| pos % 2 == chosen).map(|(_, v)| v)] (rc_sketch.rs:259-264):
    [chosen] = [true] stands for 1. *)
Fixpoint every_other {A} (chosen : bool) (l : list A) : list A :=
  match l with
  | [] => []
  | x :: l' => if chosen then every_other false l' else x :: every_other true l'
  end.

Section RC.
  Context {F : Type} {FO : FloatOps F}.

  (** One level: [buffers[i]] (rc_sketch.rs:13) and [compaction_counters[i]] (rc_sketch.rs:23).  The two vectors are only
      ever pushed to together (rc_sketch.rs:169-172, 205-208), so the model keeps one list of pairs. *)
  Definition level := (list F * N)%type.

  (** the loop of rc_sketch.rs:268-270: averages of neighbours *)
  Fixpoint averages (l : list F) : list F :=
    match l with
    | x :: y :: l' => fdiv (fadd x y) (fofZ 2) :: averages l'
    | _ => []
    end.

  (** rc_sketch.rs:243-274 [compact]: the retained part of the buffer and the output.
      [sort_by] panics on a NaN; [split_off] panics past the end. *)
  Definition rc_compact (b : list F) (compact_index : nat) (m : method) : M (list F * list F) :=
    do s <- sort_by_key (fun x => x) b;
    if length s <? compact_index then Panic
    else let upper := skipn compact_index s in
         match m with
         | Default => Flip (fun chosen => Ret (firstn compact_index s, every_other chosen upper))
         | AverageNeighbour => Ret (firstn compact_index s, averages upper)
         end.

  Section Insert.
    Variable k : nat.             (* rc_sketch.rs:17 *)
    Variable buffer_size : nat.   (* rc_sketch.rs:19 *)
    Variable fast : bool.         (* fast_compaction *)
    Variable m : method.          (* compaction_method *)

    (** rc_sketch.rs:117-123 [get_compact_index]: subtraction and [+= 1] panic on overflow; returns the index and the new counter *)
    Definition get_compact_index (b : list F) (c : N) : M (nat * N) :=
      let r := (trailing_ones c + 1) * k in
      if length b <? r then Panic else do c' <- bump c; Ret (length b - r, c').

    (** rc_sketch.rs:130-132 [get_compact_index_fast] *)
    Definition get_compact_index_fast : nat := buffer_size / 2.

    (** the choice of rc_sketch.rs:176-180 and 222-226 *)
    Definition compact_index (b : list F) (c : N) : M (nat * N) :=
      if fast then Ret (get_compact_index_fast, c) else get_compact_index b c.

    (** rc_sketch.rs:168-172 and 204-208: "Create a new buffer if required".  The model works on the levels from
        [rc_index] on, so a missing buffer is an empty list of levels. *)
    Definition ensure (lv : list level) : list F * N * list level :=
      match lv with [] => (([], 0%N), []) | l :: up => (l, up) end.

    (** rc_sketch.rs:197-236 [insert_at_rc_batch] on the levels from [rc_index] on.  [fill] is the outer loop
        (rc_sketch.rs:212-235), [drain] the inner one (rc_sketch.rs:221-234) with its recursive call on the next level.
        [fuel] bounds the number of iterations and nested calls; running out of it is [Diverge].
        [items] is the part of the input from [current_index] on. *)
    Fixpoint fill (fuel : nat) (lv : list level) (items : list F) : M (list level) :=
      match fuel with
      | O => Diverge
      | S fuel' =>
          let '((b, c), up) := ensure lv in
          match items with
          | [] => Ret ((b, c) :: up)
          | _ =>
              if buffer_size <? length b then Panic      (* self.buffer_size - self.buffers[rc_index].len() *)
              else let room := buffer_size - length b in
                   do lv' <- drain fuel' (b ++ firstn room items) c up;
                   fill fuel' lv' (skipn room items)
          end
      end
    with drain (fuel : nat) (b : list F) (c : N) (up : list level) : M (list level) :=
      match fuel with
      | O => Diverge
      | S fuel' =>
          if length b <? buffer_size then Ret ((b, c) :: up)
          else do (i, c') <- compact_index b c;
               do (b', out) <- rc_compact b i m;
               do up' <- fill fuel' up out;
               drain fuel' b' c' up'
      end.

    (** rc_sketch.rs:161-189 [insert_at_rc] *)
    Definition insert_one (fuel : nat) (lv : list level) (item : F) : M (list level) :=
      let '((b, c), up) := ensure lv in
      let b := b ++ [item] in
      if length b <? buffer_size then Ret ((b, c) :: up)
      else do (i, c') <- compact_index b c;
           do (b', out) <- rc_compact b i m;
           do up' <- fill fuel up out;
           Ret ((b', c') :: up').
  End Insert.

  (** items held by the levels *)
  Definition held (lv : list level) : nat := fold_right (fun l n => length (fst l) + n) 0 lv.

  (** fuel given to an insertion of [n] items; [RCProofs.fill_always] shows it is never exhausted *)
  Definition rc_fuel (bs : nat) (lv : list level) (n : nat) : nat := (held lv + n) * (2 * bs + 3) + 2 * n + 3.

  (** rc_sketch.rs:8-24 [RCSketch]; [count : u64] as an unbounded Z *)
  Record rc := mkRC {
    rc_levels : list level;
    rc_input_length : nat;
    rc_k : nat;
    rc_size : nat;
    rc_count : Z;
  }.

  (** rc_sketch.rs:102-111 [calc_buffer_size]; division by k = 0 panics.
      [log2_ceil] stands for [x.log2().ceil()] ([f64::log2] and [ceil] are not part of [FloatOps]). *)
  Definition calc_buffer_size (log2_ceil : F -> F) (input_length k : nat) : M nat :=
    match k with
    | O => Panic
    | _ => let x := fmul (fmul (fofZ 2) (fof_nat k)) (log2_ceil (fof_nat (input_length / k))) in
           Ret (Nat.max (match ftoZ x with Some z => Z.to_nat z | None => 0 end) (2 * k))
    end.

  (** rc_sketch.rs:91-100 [new] *)
  Definition rc_new (log2_ceil : F -> F) (input_length k : nat) : M rc :=
    do bs <- calc_buffer_size log2_ceil input_length k;
    Ret (mkRC [] input_length k bs 0%Z).

  Definition rc_with (s : rc) (lv : list level) (count : Z) : rc :=
    mkRC lv (rc_input_length s) (rc_k s) (rc_size s) count.

  (** rc_sketch.rs:46-50 [add] *)
  Definition rc_add (s : rc) (item : F) : M rc :=
    do lv <- insert_one (rc_k s) (rc_size s) false Default (rc_fuel (rc_size s) (rc_levels s) 1) (rc_levels s) item;
    Ret (rc_with s lv (rc_count s + 1)).

  (** the closures of rc_sketch.rs:55-57 and 149-151, one chunk after the other *)
  Definition rc_chunks (s : rc) (items : list F) (fast : bool) (m : method) : M (list level) :=
    do cs <- chunks (rc_size s / 2) items;
    foldM (fun lv chunk => fill (rc_k s) (rc_size s) fast m (rc_fuel (rc_size s) lv (length chunk)) lv chunk)
          (rc_levels s) cs.

  (** rc_sketch.rs:141-153 [add_buffer_custom] *)
  Definition rc_add_buffer_custom (s : rc) (items : list F) (fast : bool) (m : method) : M rc :=
    do lv <- rc_chunks s items fast m;
    Ret (rc_with s lv (rc_count s + Z.of_nat (length items))).

  (** rc_sketch.rs:52-59 [add_buffer] *)
  Definition rc_add_buffer (s : rc) (items : list F) : M rc :=
    do lv <- rc_chunks s items false Default;
    Ret (rc_with s lv (rc_count s + Z.of_nat (length items))).

  (** rc_sketch.rs:134-136 [add_buffer_fast] *)
  Definition rc_add_buffer_fast (s : rc) (items : list F) : M rc := rc_add_buffer_custom s items true Default.

  (** rc_sketch.rs:279-285 [interpolate_rank]; the sum is a [usize], here an unbounded Z.  [1 << i] panics for i >= 64. *)
  Fixpoint rank_from (i : Z) (lv : list level) (v : F) : Z :=
    match lv with
    | [] => 0
    | (b, _) :: up => Z.of_nat (length (filter (fun x => fle x v) b)) * 2 ^ i + rank_from (i + 1) up v
    end%Z.
  Definition interpolate_rank (s : rc) (rank_item : F) : M Z :=
    if 64 <? length (rc_levels s) then Panic else Ret (rank_from 0 (rc_levels s) rank_item).

  (** [1 << i] at type [i32] (rc_sketch.rs:294: the literal's type defaults to i32): panics for i >= 32, and
      [1 << 31] is the most negative [i32] *)
  Definition shl_i32 (i : Z) : M Z :=
    (if i <? 31 then Ret (2 ^ i) else if i =? 31 then Ret (- 2 ^ 31) else Panic)%Z.

  (** the loop of rc_sketch.rs:291-296.  The weight is only computed for an element of the buffer. *)
  Fixpoint weighted_from (i : Z) (lv : list level) : M (list (@centroid F)) :=
    match lv with
    | [] => Ret []
    | (b, _) :: up =>
        do cs <- mapM (fun x => do w <- shl_i32 i; Ret (Cen x (fofZ w))) b;
        do rest <- weighted_from (i + 1)%Z up;
        Ret (cs ++ rest)
    end.

  (** rc_sketch.rs:289-299 [sorted_weighted_values] *)
  Definition sorted_weighted_values (s : rc) : M (list (@centroid F)) :=
    do cs <- weighted_from 0 (rc_levels s);
    sort_by_key mean cs.

  (** rc_sketch.rs:61-63 [est_quantile_at_value] *)
  Definition rc_est_quantile (s : rc) (rank_item : F) : M F :=
    do r <- interpolate_rank s rank_item;
    Ret (fdiv (fofZ r) (fofZ (rc_count s))).

  (** the loop of rc_sketch.rs:69-75 and the final [expect] *)
  Fixpoint first_above (cs : list (@centroid F)) (total target : F) : option F :=
    match cs with
    | [] => None
    | c :: cs' => if fgt (fadd (weight c) total) target then Some (mean c)
                  else first_above cs' (fadd total (weight c)) target
    end.

  (** rc_sketch.rs:65-76 [est_value_at_quantile]; panics on an empty sketch *)
  Definition rc_est_value (s : rc) (q : F) : M F :=
    do cs <- sorted_weighted_values s;
    match first_above cs f0 (fmul q (fofZ (rc_count s))) with
    | Some v => Ret v
    | None => match rev cs with [] => Panic | c :: _ => Ret (mean c) end
    end.

  (** rc_sketch.rs:42-81: [impl Digest for RCSketch] *)
  #[universes(polymorphic)] Definition rc_digest : digest F := {|
    dst := rc;
    d_add := rc_add;
    d_add_buffer := rc_add_buffer;
    d_est_q := fun s v => do a <- rc_est_quantile s v; Ret (s, a);
    d_est_v := fun s q => do a <- rc_est_value s q; Ret (s, a);
    d_count := fun s => Ret (rc_count s);
  |}.

  (** a call that inserts items through the public interface *)
  Inductive rop := RAdd (x : F) | RBuf (l : list F) | RCustom (l : list F) (fast : bool) (m : method).
  Definition rstep (s : rc) (o : rop) : M rc :=
    match o with
    | RAdd x => rc_add s x
    | RBuf l => rc_add_buffer s l
    | RCustom l fast m => rc_add_buffer_custom s l fast m
    end.
  (** any sequence of insertions *)
  Definition rexec (s : rc) (ops : list rop) : M rc := foldM rstep s ops.
End RC.
Arguments rop F : clear implicits.
Arguments rc F : clear implicits.
