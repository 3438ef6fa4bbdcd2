(** Properties C09-C12: ParallelDigest. *)
From Coq Require Import List Arith ZArith Lia Bool Permutation Reals Lra.
From Flocq Require Import Core BinarySingleNaN.
From Verif Require Import Base Floats XReal IEEE Digest Spec FloatFacts History LinearProofs WrapProofs MultiSymProofs ChunkProofs ParallelProofs ParallelProofs2.
Set Implicit Arguments.
Unset Universe Minimization ToSet.

Definition w64 (z : Z) : f64 := fofZ z.

(* ------------------------------------------------------------------ *)
(** * C09 *)

(** One [add_buffer] call: the buffer is cut into consecutive non-empty chunks, delivered to different digests. *)
Theorem C09_chunks_delivered : forall F (FO : FloatOps F) (FL : FloatLaws F) (D : digest F) (s : parallel D) (buf : list F),
  buf <> [] -> no_nan buf -> p_digests s <> [] ->
  (Z.of_nat (length buf) < 2 ^ 53)%Z -> (Z.of_nat (length (p_digests s)) < 2 ^ 53)%Z ->
  whenever (fun s' =>
     (exists cs, concat cs = buf /\ Forall (fun c => c <> []) cs /\ length cs <= length (p_digests s) /\
                 (forall m, length buf = m * length (p_digests s) -> length cs = length (p_digests s)) /\
                 delivered D (p_digests s) cs (p_digests s')) /\
     (exists mn mx, is_min buf mn /\ is_max buf mx /\ p_min s' = fmin (p_min s) mn /\ p_max s' = fmax (p_max s) mx))
    (d_add_buffer (parallel_digest D) s buf).
Proof. exact @parallel_add_buffer_ok. Qed.
Print Assumptions C09_chunks_delivered.

(** It never panics on non-NaN data when the members do not. *)
Theorem C09_add_no_panic : forall F (FO : FloatOps F) (FL : FloatLaws F) (D : digest F) (s : parallel D) (buf : list F),
  buf <> [] -> no_nan buf ->
  (forall d c, In d (p_digests s) -> always (fun _ => True) (d_add_buffer D d c)) ->
  always (fun _ => True) (d_add_buffer (parallel_digest D) s buf).
Proof. exact @parallel_add_buffer_no_panic. Qed.
Print Assumptions C09_add_no_panic.

(** Whole histories, any schedules: the count is the number of items supplied, and the recorded minimum and maximum
    are the extremes of all of them. *)
Theorem C09_history_count_and_extremes : forall F (FO : FloatOps F) (FL : FloatLaws F) (D : digest F)
    (ok : F -> Prop) (I : dst D -> nat -> Prop) (sched : nat -> rtree) (ds : list (dst D)) (ops : list (op F)),
  counting D ok I ->
  ds <> [] -> (Z.of_nat (length ds) < 2 ^ 53)%Z -> Forall (fun d => I d 0) ds ->
  Forall (fun o => match o with
                   | Add x => ok x /\ finite x
                   | AddBuf l => Forall ok l /\ Forall finite l /\ (Z.of_nat (length l) < 2 ^ 53)%Z
                   | _ => True end) ops ->
  whenever (fun r => d_count (parallel_digest D) (fst r) = Ret (Z.of_nat (length (items_of ops))) /\
                     (items_of ops <> [] -> has_min (items_of ops) (p_min (fst r)) /\ has_max (items_of ops) (p_max (fst r))))
    (exec (parallel_digest D) (parallel_new D sched ds) ops).
Proof. exact @parallel_history_plain. Qed.
Print Assumptions C09_history_count_and_extremes.

(** Limits of the claim: an empty buffer panics; with no digests every item is silently dropped. *)
Theorem C09_empty_buffer_panics : forall F (FO : FloatOps F) (D : digest F) (s : parallel D),
  must_panic (d_add_buffer (parallel_digest D) s []).
Proof. exact @parallel_add_empty_panics. Qed.
Print Assumptions C09_empty_buffer_panics.

Theorem C09_no_digests_drops_items : forall F (FO : FloatOps F) (D : digest F) (s : parallel D) (x : F),
  p_digests s = [] ->
  exists s', d_add (parallel_digest D) s x = Ret s' /\ p_digests s' = [] /\ d_count (parallel_digest D) s' = Ret 0%Z.
Proof. exact @parallel_zero_digests_drop. Qed.
Print Assumptions C09_no_digests_drops_items.

Definition seven : list f64 := map w64 [7; 6; 5; 4; 3; 2; 1]%Z.
Example C09_nonvacuous :
  match exec (parallel_digest (linear_digest f64)) (parallel_new (linear_digest f64) (fun _ => RLeaf) [[]; []; []]) [AddBuf seven; Val (frat 1 2)] with
  | Ret (s, [a]) => map (@length f64) (p_digests s) = [3; 3; 1] /\ feq (p_min s) (w64 1) = true /\ feq (p_max s) (w64 7) = true
                    /\ fle (w64 3) a = true /\ fle a (w64 5) = true
  | _ => False end.
Proof. vm_compute. auto. Qed.

(* ------------------------------------------------------------------ *)
(** * C10 *)

(** Refuted: 5 items over 4 digests leave the last digest empty; its NaN estimate makes every combined quantile NaN and
    every value query panic. *)
Definition four_new : parallel (linear_digest f64) := parallel_new (linear_digest f64) (fun _ => RLeaf) [[]; []; []; []].
Definition is_panic {A} (m : M A) : bool := match m with Panic => true | _ => false end.
Definition five : list f64 := map w64 [1; 2; 3; 4; 5]%Z.
Lemma five_over_four_witness :
  match exec (parallel_digest (linear_digest f64)) four_new [AddBuf five; Quant (w64 3)] with
  | Ret (s, [a]) => fisnan a = true | _ => False end
  /\ is_panic (exec (parallel_digest (linear_digest f64)) four_new [AddBuf five; Val (frat 1 2)]) = true
  /\ is_panic (exec (parallel_digest (linear_digest f64)) (parallel_new (linear_digest f64) (fun _ => RLeaf) [[]; []]) [Add (w64 1); Add (w64 2); Val (frat 1 2)]) = true.
Proof. vm_compute. auto. Qed.

Theorem C10_usable_for_every_count_refuted :
  match exec (parallel_digest (linear_digest f64)) four_new [AddBuf five; Quant (w64 3)] with
  | Ret (s, [a]) => fisnan a = true | _ => False end
  /\ is_panic (exec (parallel_digest (linear_digest f64)) four_new [AddBuf five; Val (frat 1 2)]) = true
  /\ is_panic (exec (parallel_digest (linear_digest f64)) (parallel_new (linear_digest f64) (fun _ => RLeaf) [[]; []]) [Add (w64 1); Add (w64 2); Val (frat 1 2)]) = true.
Proof. exact five_over_four_witness. Qed.
Print Assumptions C10_usable_for_every_count_refuted.

(** What remains true (missing from the full claim: states with an empty member): when every member holds an item and
    estimates quantiles in [0,1], the combined quantile is in [0,1], for every schedule and in every arithmetic. *)
Theorem C10_quantile_in_unit_interval_partial : forall F (FO : FloatOps F) (FL : FloatLaws F) (D : digest F)
    (I : dst D -> nat -> Prop) (okv : F -> Prop),
  (forall s n, I s n -> d_count D s = Ret (Z.of_nat n)) ->
  (forall s n v, okv v -> I s n -> 1 <= n ->
     always (fun r => I (fst r) n /\ exists e, fval (snd r) = XFin e /\ (0 <= e <= 1)%R) (d_est_q D s v)) ->
  forall (s : parallel D) (v : F) (ns : list nat), okv v ->
  Forall2 I (p_digests s) ns -> Forall (fun n => 1 <= n) ns -> ns <> [] -> (Z.of_nat (sum_nat ns) <= fint)%Z ->
  always (fun r => Forall2 I (p_digests (fst r)) ns /\ p_min (fst r) = p_min s /\ p_max (fst r) = p_max s /\
                   p_tick (fst r) = S (p_tick s) /\
                   exists e, fval (snd r) = XFin e /\ (0 <= e <= 1)%R)
    (parallel_est_q s v).
Proof. exact @parallel_est_q_range. Qed.
Print Assumptions C10_quantile_in_unit_interval_partial.

Theorem C10_linear_members_partial : forall F (FO : FloatOps F) (FL : FloatLaws F) (s : parallel (linear_digest F)) (v : F),
  Forall (fun d => d <> []) (p_digests s) -> p_digests s <> [] ->
  (2 * Z.of_nat (length (concat (p_digests s))) <= fint)%Z ->
  always (fun r => exists e, fval (snd r) = XFin e /\ (0 <= e <= 1)%R) (parallel_est_q s v).
Proof. exact @parallel_linear_est_q_range. Qed.
Print Assumptions C10_linear_members_partial.

(** Every member does hold an item after one buffer whose length is a multiple of the number of digests. *)
Theorem C10_multiples_fill_every_member : forall F (FO : FloatOps F) (FL : FloatLaws F) (s : parallel (linear_digest F)) (buf : list F) (m : nat),
  1 <= m -> length buf = m * length (p_digests s) -> p_digests s <> [] -> no_nan buf -> (Z.of_nat (length buf) < 2 ^ 53)%Z ->
  always (fun s' : parallel (linear_digest F) =>
            Forall (fun d => d <> []) (p_digests s') /\ length (p_digests s') = length (p_digests s)
            /\ length (concat (p_digests s')) = length (concat (p_digests s)) + length buf)
    (d_add_buffer (parallel_digest (linear_digest F)) s buf).
Proof. exact @parallel_multiple_fills. Qed.
Print Assumptions C10_multiples_fill_every_member.

(* ------------------------------------------------------------------ *)
(** * C11 *)

(** Exact arithmetic, any members.  [G v e]: e is a possible combined estimate at v, in any state of the invariant [PI].
    At most 22 estimates are made (20 bisection steps and the final two).  The answer [v] lies in the final bracket
    [a,b], inside [min,max] and at most 1e-6(|min|+|max|) wide; [a] is the minimum or was estimated at most q, [b] the
    maximum or estimated above q; [v] was estimated at least q unless it is [b]. *)
Theorem C11_search_terminates_and_brackets : forall (D : digest xr) (PI : parallel D -> Prop) (mn mx : R),
  (forall s, PI s -> p_min s = XFin mn /\ p_max s = XFin mx) -> (mn <= mx)%R ->
  forall (G : R -> xr -> Prop),
  (forall s v, PI s -> (mn <= v <= mx)%R ->
     always (fun r => PI (fst r) /\ snd r <> XNaN /\ G v (snd r) /\ p_tick (fst r) = S (p_tick s)) (parallel_est_q s (XFin v))) ->
  forall (q : xr), q <> XNaN -> forall (s : parallel D), PI s ->
  always (fun r => PI (fst r) /\ p_tick (fst r) <= p_tick s + 22 /\
      exists v a b, snd r = XFin v /\ (mn <= a <= v)%R /\ (v <= b <= mx)%R /\
        (b - a <= / 1000000 * (Rabs mn + Rabs mx))%R /\
        (a = mn \/ exists e, G a e /\ xle e q) /\ (b = mx \/ exists e, G b e /\ xlt q e) /\
        (v = b \/ exists e, G v e /\ xle q e))
    (parallel_est_v s q).
Proof. exact parallel_est_v_ok. Qed.
Print Assumptions C11_search_terminates_and_brackets.

(** The same over reference members, with no assumption left about estimates: [pooled_rank] is the members' mid-ranks
    added up over the number of items. *)
Theorem C11_linear_members : forall (s : parallel (linear_digest xr)) (q mn mx : R),
  Forall (fun d => d <> []) (p_digests s) -> p_digests s <> [] -> p_min s = XFin mn -> p_max s = XFin mx -> (mn <= mx)%R ->
  always (fun r => exists v a b, snd r = XFin v /\ p_digests (fst r) = p_digests s /\ p_tick (fst r) <= p_tick s + 22 /\
        (mn <= a <= v)%R /\ (v <= b <= mx)%R /\ (b - a <= / 1000000 * (Rabs mn + Rabs mx))%R /\
        (a = mn \/ pooled_rank (p_digests s) (XFin a) <= q)%R /\ (b = mx \/ q < pooled_rank (p_digests s) (XFin b))%R /\
        (v = b \/ q <= pooled_rank (p_digests s) (XFin v))%R)
    (parallel_est_v s (XFin q)).
Proof. exact parallel_linear_est_v_xr. Qed.
Print Assumptions C11_linear_members.

(** not vacuous: a two-member state satisfying the hypotheses (and C09_nonvacuous runs the search in f64) *)
Example C11_nonvacuous : exists s : parallel (linear_digest xr),
  p_digests s = [[XFin 1]; [XFin 3]] /\ Forall (fun d => d <> []) (p_digests s) /\ p_min s = XFin 1 /\ p_max s = XFin 3.
Proof.
  exists {| p_digests := ([[XFin 1]; [XFin 3]] : list (dst (linear_digest xr))); p_min := XFin 1; p_max := XFin 3; p_sched := fun _ => RLeaf; p_tick := 0 |}.
  repeat split; repeat constructor; discriminate.
Qed.

(* ------------------------------------------------------------------ *)
(** * C12 *)

(** Refuted in f64: three members, two schedules, two different answers. *)
Definition below_above (b n : nat) : list f64 := repeat (w64 0) b ++ repeat (w64 2) (n - b).
Definition three_members : list (list f64) := [below_above 15 22; below_above 15 22; below_above 2 49].
Definition ask_sched (t : rtree) : M f64 :=
  do (s, a) <- parallel_est_q (parallel_new (linear_digest f64) (fun _ => t) three_members) (w64 1); Ret a.
Lemma schedule_witness :
  match ask_sched RLeaf, ask_sched (RNode 1 RLeaf RLeaf) with
  | Ret a, Ret b => flt b a = true | _, _ => False end.
Proof. vm_compute. reflexivity. Qed.

Theorem C12_schedule_independent_refuted :
  match ask_sched RLeaf, ask_sched (RNode 1 RLeaf RLeaf) with
  | Ret a, Ret b => flt b a = true | _, _ => False end.
Proof. exact schedule_witness. Qed.
Print Assumptions C12_schedule_independent_refuted.

(** What remains true (missing from the full claim: rounding): in exact arithmetic, for any members and any two
    schedules, the answer and the members' new states are the same. *)
Theorem C12_schedule_independent_partial : forall (D : digest xr) (s : parallel D) (v : xr) (f g : nat -> rtree),
  bind (parallel_est_q (with_sched s f) v) (fun r => Ret (p_digests (fst r), snd r)) =
  bind (parallel_est_q (with_sched s g) v) (fun r => Ret (p_digests (fst r), snd r)).
Proof. exact parallel_schedule_independent. Qed.
Print Assumptions C12_schedule_independent_partial.
