(** Properties C04-C08: BufferedDigest, MultiDigest, SymDigest. *)
From Coq Require Import List Arith ZArith Lia Bool Permutation Reals Lra.
From Flocq Require Import Core BinarySingleNaN.
From Verif Require Import Base Floats XReal IEEE Digest Spec FloatFacts History LinearProofs WrapProofs MultiSymProofs.
Set Implicit Arguments.
Unset Universe Minimization ToSet.

Definition z64 (z : Z) : f64 := fofZ z.

(* ------------------------------------------------------------------ *)
(** * C04 *)

(** A history [ops] on a BufferedDigest behaves, coin for coin and panic for panic, like some history [ops'] on the
    bare inner digest: [ops'] supplies the same items in the same order (except the at most [c] still buffered at
    the end, [buf']) and asks the same queries, each after the same items.  The items come in batches: between [c + 1] and
    [2 c] of them, or the at most [c] pending ones just before a query. *)
Theorem C04_buffering_transparent : forall F (D : digest F) (c : nat) (d : dst D) (ops : list (op F)),
  1 <= c ->
  exists ops' buf',
    exec (buffered_digest D) (buffered_new D d c) ops =
      bind (exec D d ops') (fun r => Ret ({| b_digest := fst r; b_buffer := buf'; b_capacity := c |}, snd r))
    /\ items_of ops' ++ buf' = items_of ops
    /\ length buf' <= c
    /\ queries_of [] ops' = queries_of [] ops
    /\ batched c ops'.
Proof. exact @buffered_transparent. Qed.
Print Assumptions C04_buffering_transparent.

(** count is the number of items supplied, whenever the inner digest counts correctly (any capacity) *)
Theorem C04_buffered_counts : forall F (D : digest F) (ok : F -> Prop) (I : dst D -> nat -> Prop) (c : nat)
    (d : dst D) (ops : list (op F)),
  counting D ok I -> I d 0 -> Forall ok (items_of ops) ->
  whenever (fun r => d_count (buffered_digest D) (fst r) = Ret (Z.of_nat (length (items_of ops))))
           (exec (buffered_digest D) (buffered_new D d c) ops).
Proof. exact @buffered_exec_count. Qed.
Print Assumptions C04_buffered_counts.

(** with a LinearDigest inside: same answers, panics included, as the bare LinearDigest *)
Theorem C04_buffered_linear_same_answers : forall F (FO : FloatOps F) (c : nat) (ops : list (op F)),
  1 <= c ->
  bind (exec (buffered_digest (linear_digest F)) (buffered_new (linear_digest F) linear_new c) ops) (fun r => Ret (snd r))
  = bind (exec (linear_digest F) linear_new ops) (fun r => Ret (snd r)).
Proof. exact @buffered_linear_answers. Qed.
Print Assumptions C04_buffered_linear_same_answers.

Definition whist : list (op f64) :=
  [AddBuf [z64 5; z64 1; z64 4]; Add (z64 2); Val (frat 1 2); Add (z64 9); Quant (z64 4)].
Example C04_nonvacuous :
  match exec (buffered_digest (linear_digest f64)) (buffered_new (linear_digest f64) linear_new 2) whist with
  | Ret (s, [a; b]) => length (b_buffer s) = 0 /\ feq a (z64 4) = true /\ feq b (frat 2 5) = true
  | _ => False end.
Proof. vm_compute. auto. Qed.

(* ------------------------------------------------------------------ *)
(** * C05 *)

(** Refuted: with capacity 0 every [add_buffer] call panics, even an empty one, whatever the inner digest. *)
Theorem C05_any_capacity_refuted : forall F (D : digest F) (d : dst D) (items : list F),
  d_add_buffer (buffered_digest D) (buffered_new D d 0) items = Panic.
Proof. exact @buffered_new_cap0_panics. Qed.
Print Assumptions C05_any_capacity_refuted.

(** What remains true (full claim: both [add] and [add_buffer] work for capacity 0): single-item [add] does work for
    capacity 0, every item going straight to the inner digest. *)
Theorem C05_any_capacity_partial : forall F (D : digest F) (d : dst D) (x : F),
  d_add (buffered_digest D) (buffered_new D d 0) x =
  bind (d_add_buffer D d [x]) (fun d' => Ret (buffered_new D d' 0)).
Proof. exact @buffered_add_cap0. Qed.
Print Assumptions C05_any_capacity_partial.

(* ------------------------------------------------------------------ *)
(** * C06 *)

(** After any history that returns, every member has gone through exactly that history alone ([alone]), and the i-th
    answer is the mean of the members' i-th answers. *)
Theorem C06_multi_forwards_and_averages : forall F (FO : FloatOps F) (ops : list (op F)) (ds : list (boxed F)),
  whenever (fun r => exists outs, Forall2 (fun b out => alone ops b (fst out) (snd out)) ds outs
              /\ fst r = map fst outs
              /\ Forall (fun out => length (snd out) = n_queries ops) outs
              /\ snd r = map (fun i => meanF (map (fun out => nth i (snd out) f0) outs)) (seq 0 (n_queries ops)))
    (exec (multi_digest F) ds ops).
Proof. exact @multi_forwards. Qed.
Print Assumptions C06_multi_forwards_and_averages.

(** and the wrapper adds no panics: if no member can panic on this history, neither can the MultiDigest *)
Theorem C06_multi_adds_no_panic : forall F (FO : FloatOps F) (ops : list (op F)) (ds : list (boxed F)),
  Forall (fun b => always (fun _ => True) (exec (bx_impl b) (bx_state b) ops)) ds ->
  always (fun _ => True) (exec (multi_digest F) ds ops).
Proof. exact @multi_no_new_panic. Qed.
Print Assumptions C06_multi_adds_no_panic.

Definition two_linear : list (boxed f64) := [Box (linear_digest f64) [z64 10]; Box (linear_digest f64) linear_new].
(** members [10;4] and [4]: medians 4 (position 1 of [4;10] is 10!) ... the answers are 10 and 4, the mean 7 *)
Example C06_nonvacuous :
  match exec (multi_digest f64) two_linear [Add (z64 4); Val (frat 1 2)] with
  | Ret (_, [a]) => feq a (z64 7) = true | _ => False end.
Proof. vm_compute. reflexivity. Qed.

(* ------------------------------------------------------------------ *)
(** * C07 *)

(** Refuted: with two members, one added item is counted twice. *)
Theorem C07_multi_count_refuted : exists (ds : list (boxed xr)) (ops : list (op xr)),
  length (items_of ops) = 1 /\
  exists r, exec (multi_digest xr) ds ops = Ret r /\ d_count (multi_digest xr) (fst r) = Ret 2%Z.
Proof. exact multi_count_twice. Qed.
Print Assumptions C07_multi_count_refuted.

(** What remains true: with correctly counting members, the reported number is (members) x (items seen); it is the
    number of items exactly when there is one member (or no item). *)
Theorem C07_multi_count_partial : forall F (FO : FloatOps F) (ds : list (boxed F)) (ops : list (op F)),
  Forall (fun b => whenever (fun r => d_count (bx_impl b) (fst r) = Ret (Z.of_nat (length (items_of ops))))
                     (exec (bx_impl b) (bx_state b) ops)) ds ->
  whenever (fun r => d_count (multi_digest F) (fst r)
                     = Ret (Z.of_nat (length ds) * Z.of_nat (length (items_of ops)))%Z)
    (exec (multi_digest F) ds ops).
Proof. exact @multi_count_multiplied. Qed.
Print Assumptions C07_multi_count_partial.

(* ------------------------------------------------------------------ *)
(** * C08 *)

(** The low digest goes through the history, the high one through the mirrored history (items and values negated,
    quantiles q replaced by 1-q), and every answer is [sym_combine] of theirs: from the low side below 1/2, mirrored
    from the high side above 1/2, their mean at 1/2. *)
Theorem C08_sym_mirrors_and_selects : forall F (FO : FloatOps F) (D : digest F) (ops : list (op F)) (s : sym D),
  whenever (fun r => exists al ah,
      returns (exec D (low_digest s) ops) (low_digest (fst r), al) /\
      returns (exec D (high_digest s) (map mirror ops)) (high_digest (fst r), ah) /\
      sym_answers ops al ah (snd r))
    (exec (sym_digest D) s ops).
Proof. exact @sym_forwards. Qed.
Print Assumptions C08_sym_mirrors_and_selects.

(** count is the number of items supplied when the halves count correctly *)
Theorem C08_sym_counts : forall F (FO : FloatOps F) (D : digest F) (ok : F -> Prop) (I : dst D -> nat -> Prop)
    (l h : dst D) (ops : list (op F)),
  counting D ok I -> I l 0 -> I h 0 -> Forall (fun x => ok x /\ ok (fneg x)) (items_of ops) ->
  whenever (fun r => d_count (sym_digest D) (fst r) = Ret (Z.of_nat (length (items_of ops))))
           (exec (sym_digest D) (Sym D l h) ops).
Proof. exact @sym_exec_count. Qed.
Print Assumptions C08_sym_counts.

(** Over reference digests the value query at q <> 1/2 never panics and returns a supplied item (up to the sign of
    zero), at the position min(round(q n), n-1) below 1/2 and n-1-min(round((1-q) n), n-1) above (all products and
    differences rounded in floating point). *)
Theorem C08_sym_linear_value_is_item : forall F (FO : FloatOps F) (FL : FloatLaws F) (ops : list (op F)) (q : F) (r : R),
  let its := items_of ops in let n := length its in
  its <> [] -> no_nan its -> (Z.of_nat n <= fint)%Z -> (Z.of_nat n < 2 ^ 64)%Z ->
  fval q = XFin r -> (0 <= r <= 1)%R -> r <> (1/2)%R ->
  exists r' p p', frnd (1 - r) = XFin r' /\ frnd (r * INR n) = XFin p /\ frnd (r' * INR n) = XFin p' /\
  whenever (fun res => always (fun out =>
      exists x, fval (snd out) = fval x /\
        order_stat its (if Rlt_dec r (1/2) then val_index n p else n - 1 - val_index n p') x)
    (d_est_v (sym_digest (linear_digest F)) (fst res) q))
    (exec (sym_digest (linear_digest F)) (Sym (linear_digest F) linear_new linear_new) ops).
Proof. exact @sym_linear_value. Qed.
Print Assumptions C08_sym_linear_value_is_item.

(** exact arithmetic: the centre of the returned item's position is within one position of q*n *)
Theorem C08_sym_linear_rank_error : forall (ops : list (op xr)) (r : R),
  let its := items_of ops in let n := length its in
  its <> [] -> no_nan its -> (Z.of_nat n < 2 ^ 64)%Z -> (0 <= r <= 1)%R -> r <> (1/2)%R ->
  whenever (fun res => always (fun out => exists i,
        order_stat its i (snd out) /\ (Rabs (r * INR n - (INR i + 1/2)) <= 1)%R)
      (d_est_v (sym_digest (linear_digest xr)) (fst res) (XFin r)))
    (exec (sym_digest (linear_digest xr)) (Sym (linear_digest xr) linear_new linear_new) ops).
Proof. exact sym_linear_rank_error. Qed.
Print Assumptions C08_sym_linear_rank_error.

(** items 5,1,4,2: the 3/4 quantile is answered from the mirrored side: position 4-1-round(4/4) = 2, the item 4;
    the 1/4 quantile from the low side: position round(4/4) = 1, the item 2 *)
Example C08_nonvacuous :
  match exec (sym_digest (linear_digest f64)) (Sym (linear_digest f64) linear_new linear_new)
    [AddBuf [z64 5; z64 1; z64 4; z64 2]; Val (frat 3 4); Val (frat 1 4)] with
  | Ret (_, [a; b]) => feq a (z64 4) = true /\ feq b (z64 2) = true | _ => False end.
Proof. vm_compute. auto. Qed.
