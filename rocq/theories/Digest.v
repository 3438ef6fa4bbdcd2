(** The [Digest] trait (/repo/src/traits.rs:3-34), histories of calls, and the simple digests and wrappers:
    LinearDigest, BufferedDigest, MultiDigest, SymDigest, ParallelDigest. *)
From Coq Require Import List Arith ZArith Lia Bool.
From Flocq Require Import BinarySingleNaN.
From Verif Require Import Base Floats IEEE.
Set Implicit Arguments.

Set Universe Polymorphism.   (* a MultiDigest is a digest whose state contains digests *)

(* ------------------------------------------------------------------ *)
(** * The trait *)

(** One implementation of [Digest<F>] (/repo/src/traits.rs:3-34).  [&mut self] methods return the new state.
    [count] returns a [u64], represented by an unbounded [Z] (no modelled count exceeds 2^64). *)
Record digest (F : Type) := {
  dst : Type;                                 (* Self *)
  d_add : dst -> F -> M dst;                  (* traits.rs:12 *)
  d_add_buffer : dst -> list F -> M dst;      (* traits.rs:19 *)
  d_est_q : dst -> F -> M (dst * F);          (* est_quantile_at_value, traits.rs:24 *)
  d_est_v : dst -> F -> M (dst * F);          (* est_value_at_quantile, traits.rs:29 *)
  d_count : dst -> M Z;                       (* traits.rs:33 *)
}.

Arguments dst {F} d.
Arguments d_add {F} d _ _.
Arguments d_add_buffer {F} d _ _.
Arguments d_est_q {F} d _ _.
Arguments d_est_v {F} d _ _.
Arguments d_count {F} d _.

(** A history: the sequence of mutating trait calls a user makes on one digest. *)
Monomorphic Inductive op (F : Type) :=
| Add (x : F)
| AddBuf (l : list F)
| Quant (v : F)        (* est_quantile_at_value(v) *)
| Val (q : F).         (* est_value_at_quantile(q) *)
Arguments Add {F}. Arguments AddBuf {F}. Arguments Quant {F}. Arguments Val {F}.

Section History.
  Context {F : Type}.
  Variable D : digest F.

  (** one call: new state and the answers it produced (none or one) *)
  Definition step (s : dst D) (o : op F) : M (dst D * list F) :=
    match o with
    | Add x => do s' <- d_add D s x; Ret (s', [])
    | AddBuf l => do s' <- d_add_buffer D s l; Ret (s', [])
    | Quant v => do (s', a) <- d_est_q D s v; Ret (s', [a])
    | Val q => do (s', a) <- d_est_v D s q; Ret (s', [a])
    end.

  (** a whole history: final state and all answers in order *)
  Fixpoint exec (s : dst D) (ops : list (op F)) : M (dst D * list F) :=
    match ops with
    | [] => Ret (s, [])
    | o :: ops' => do (s', a) <- step s o; do (s'', b) <- exec s' ops'; Ret (s'', a ++ b)
    end.
End History.

(* ------------------------------------------------------------------ *)
(** * LinearDigest (/repo/src/util/linear_digest.rs) *)

Section Linear.
  Context {F : Type} {FO : FloatOps F}.

  (** linear_digest.rs:15-17 [new] *)
  Definition linear_new : list F := [].

  (** linear_digest.rs:24-26 [add] *)
  Definition linear_add (values : list F) (item : F) : list F := values ++ [item].

  (** linear_digest.rs:28-30 [add_buffer] *)
  Definition linear_add_buffer (values items : list F) : list F := values ++ items.

  (** linear_digest.rs:32-41 [est_quantile_at_value] *)
  Definition linear_est_q (values : list F) (target_value : F) : F :=
    let less_than := fof_nat (length (filter (fun x => flt x target_value) values)) in
    let equal_to := fof_nat (length (filter (fun x => feq x target_value) values)) in
    if fle equal_to f1
    then fdiv less_than (fof_nat (length values))
    else fdiv (fadd less_than (fdiv equal_to f2)) (fof_nat (length values)).

  (** linear_digest.rs:43-52 [est_value_at_quantile]: index computed first, then the (state changing) stable sort,
      then the possibly out-of-bounds index *)
  Definition linear_est_v (values : list F) (target_quantile : F) : M (list F * F) :=
    let f_len := fof_nat (length values) in
    do target_index <- unwrap (ftoZ (fround (fmul target_quantile f_len)));
    do values <- sort_by_key (fun x => x) values;
    if Z.eqb target_index (Z.of_nat (length values))
    then do x <- unwrap (last (map (@Some F) values) None); Ret (values, x)
    else if Z.ltb target_index (Z.of_nat (length values))
         then do x <- index values (Z.to_nat target_index); Ret (values, x)
         else Panic.

  Definition linear_digest : digest F := {|
    dst := list F;
    d_add := fun s x => Ret (linear_add s x);
    d_add_buffer := fun s l => Ret (linear_add_buffer s l);
    d_est_q := fun s v => Ret (s, linear_est_q s v);
    d_est_v := linear_est_v;
    d_count := fun s => Ret (Z.of_nat (length s));      (* linear_digest.rs:54-56 *)
  |}.
End Linear.
Arguments linear_digest F {FO}.

(* ------------------------------------------------------------------ *)
(** * BufferedDigest (/repo/src/buffered_digest.rs) *)

Section Buffered.
  Context {F : Type}.
  Variable D : digest F.

  (** buffered_digest.rs:4-13; the capacity is fixed at construction *)
  Record buffered := { b_digest : dst D; b_buffer : list F; b_capacity : nat }.

  (** buffered_digest.rs:32-38 [new] *)
  Definition buffered_new (d : dst D) (capacity : nat) : buffered :=
    {| b_digest := d; b_buffer := []; b_capacity := capacity |}.

  (** buffered_digest.rs:40-43 [flush]: always forwards the buffer, even an empty one *)
  Definition buffered_flush (s : buffered) : M buffered :=
    do d <- d_add_buffer D (b_digest s) (b_buffer s);
    Ret {| b_digest := d; b_buffer := []; b_capacity := b_capacity s |}.

  (** the common tail of buffered_digest.rs:51-56 and 60-63 *)
  Definition buffered_push (s : buffered) (items : list F) : M buffered :=
    let s' := {| b_digest := b_digest s; b_buffer := b_buffer s ++ items; b_capacity := b_capacity s |} in
    if Nat.ltb (b_capacity s') (length (b_buffer s')) then buffered_flush s' else Ret s'.

  (** buffered_digest.rs:51-56 [add] *)
  Definition buffered_add (s : buffered) (item : F) : M buffered := buffered_push s [item].

  (** buffered_digest.rs:58-65 [add_buffer]; [chunks] panics for capacity 0 *)
  Definition buffered_add_buffer (s : buffered) (items : list F) : M buffered :=
    do cs <- chunks (b_capacity s) items;
    foldM buffered_push s cs.

  (** buffered_digest.rs:67-70 *)
  Definition buffered_est_q (s : buffered) (v : F) : M (buffered * F) :=
    do s <- buffered_flush s;
    do (d, a) <- d_est_q D (b_digest s) v;
    Ret ({| b_digest := d; b_buffer := b_buffer s; b_capacity := b_capacity s |}, a).

  (** buffered_digest.rs:72-75 *)
  Definition buffered_est_v (s : buffered) (q : F) : M (buffered * F) :=
    do s <- buffered_flush s;
    do (d, a) <- d_est_v D (b_digest s) q;
    Ret ({| b_digest := d; b_buffer := b_buffer s; b_capacity := b_capacity s |}, a).

  (** buffered_digest.rs:77-79 *)
  Definition buffered_count (s : buffered) : M Z :=
    do n <- d_count D (b_digest s); Ret (n + Z.of_nat (length (b_buffer s)))%Z.

  Definition buffered_digest : digest F := {|
    dst := buffered;
    d_add := buffered_add;
    d_add_buffer := buffered_add_buffer;
    d_est_q := buffered_est_q;
    d_est_v := buffered_est_v;
    d_count := buffered_count;
  |}.
End Buffered.

(* ------------------------------------------------------------------ *)
(** * MultiDigest (/repo/src/multi_digest.rs) *)

Section Multi.
  Context {F : Type} {FO : FloatOps F}.

  (** [Box<dyn Digest<F>>]: an implementation together with its state *)
  Record boxed := Box { bx_impl : digest F; bx_state : dst bx_impl }.

  (** multi_digest.rs:15-19 [new], 21-23 [add_digest] *)
  Definition multi_new : list boxed := [].
  Definition multi_add_digest (ds : list boxed) (d : boxed) : list boxed := ds ++ [d].

  (** multi_digest.rs:30-34 *)
  Definition multi_add (ds : list boxed) (item : F) : M (list boxed) :=
    mapM (fun b => do s <- d_add (bx_impl b) (bx_state b) item; Ret (Box (bx_impl b) s)) ds.

  (** multi_digest.rs:36-40 *)
  Definition multi_add_buffer (ds : list boxed) (items : list F) : M (list boxed) :=
    mapM (fun b => do s <- d_add_buffer (bx_impl b) (bx_state b) items; Ret (Box (bx_impl b) s)) ds.

  (** multi_digest.rs:43-47 / 51-55: run every member, sum the answers from 0.0 in order, divide by the number *)
  Definition multi_query (f : forall D : digest F, dst D -> F -> M (dst D * F))
      (ds : list boxed) (x : F) : M (list boxed * F) :=
    do rs <- mapM (fun b => do (s, a) <- f (bx_impl b) (bx_state b) x; Ret (Box (bx_impl b) s, a)) ds;
    Ret (map fst rs, fdiv (fold_left fadd (map snd rs) f0) (fof_nat (length ds))).

  (** multi_digest.rs:58-60 *)
  Definition multi_count (ds : list boxed) : M Z :=
    do ns <- mapM (fun b => d_count (bx_impl b) (bx_state b)) ds;
    Ret (fold_left Z.add ns 0%Z).

  Definition multi_digest : digest F := {|
    dst := list boxed;
    d_add := multi_add;
    d_add_buffer := multi_add_buffer;
    d_est_q := multi_query (fun D => d_est_q D);
    d_est_v := multi_query (fun D => d_est_v D);
    d_count := multi_count;
  |}.
End Multi.
Arguments boxed F : clear implicits.
Arguments multi_digest F {FO}.

(* ------------------------------------------------------------------ *)
(** * SymDigest (/repo/src/sym_digest.rs) *)

Section Sym.
  Context {F : Type} {FO : FloatOps F}.
  Variable D : digest F.

  (** sym_digest.rs:8-13, 75-80 *)
  Record sym := Sym { low_digest : dst D; high_digest : dst D }.

  (** sym_digest.rs:26-29 *)
  Definition sym_add (s : sym) (item : F) : M sym :=
    do l <- d_add D (low_digest s) item;
    do h <- d_add D (high_digest s) (fneg item);
    Ret (Sym l h).

  (** sym_digest.rs:31-35 *)
  Definition sym_add_buffer (s : sym) (items : list F) : M sym :=
    do l <- d_add_buffer D (low_digest s) items;
    do h <- d_add_buffer D (high_digest s) (map fneg items);
    Ret (Sym l h).

  (** sym_digest.rs:40-53 *)
  Definition sym_est_q (s : sym) (value : F) : M (sym * F) :=
    do (l, low_est) <- d_est_q D (low_digest s) value;
    do (h, e) <- d_est_q D (high_digest s) (fneg value);
    let high_est := fsub f1 e in
    let avg := fdiv (fadd low_est high_est) f2 in
    do c <- cmp_unwrap avg fhalf;
    Ret (Sym l h, match c with Lt => low_est | Gt => high_est | Eq => avg end).

  (** sym_digest.rs:55-67 *)
  Definition sym_est_v (s : sym) (q : F) : M (sym * F) :=
    do (l, low_est) <- d_est_v D (low_digest s) q;
    do (h, e) <- d_est_v D (high_digest s) (fsub f1 q);
    let high_est := fneg e in
    do c <- cmp_unwrap q fhalf;
    Ret (Sym l h, match c with Lt => low_est | Gt => high_est | Eq => fdiv (fadd low_est high_est) f2 end).

  Definition sym_digest : digest F := {|
    dst := sym;
    d_add := sym_add;
    d_add_buffer := sym_add_buffer;
    d_est_q := sym_est_q;
    d_est_v := sym_est_v;
    d_count := fun s => d_count D (low_digest s);      (* sym_digest.rs:69-71 *)
  |}.
End Sym.

(* ------------------------------------------------------------------ *)
(** * ParallelDigest (/repo/src/parallel_digest.rs) *)

(** A rayon schedule for [reduce] over an indexed parallel iterator: leaves are folded sequentially from the
    identity, inner nodes split their slice at some position and combine the two halves. *)
Monomorphic Inductive rtree := RLeaf | RNode (split : nat) (l r : rtree).

Unset Universe Polymorphism.
Section Reduce.
  Context {A : Type}.
  Variables (id : A) (opr : A -> A -> A).
  Fixpoint reduce (t : rtree) (l : list A) : A :=
    match t with
    | RLeaf => fold_left opr l id
    | RNode n tl tr => opr (reduce tl (firstn n l)) (reduce tr (skipn n l))
    end.
End Reduce.
Set Universe Polymorphism.

(** parallel_digest.rs:27: [((len as f64 / d as f64).ceil() as usize).max(1)], in f64 arithmetic; the saturating
    float-to-usize cast is modelled by clamping, and the chunk size by itself or the length (a chunk size above
    max(1,len) cuts in the same way as max(1,len)). *)
Definition ceil_usize (x : f64) : Z :=
  match x with
  | B754_zero _ => 0
  | B754_nan => 0
  | B754_infinity true => 0
  | B754_infinity false => 2 ^ 64 - 1
  | B754_finite _ _ _ _ => Z.max 0 (Z.min (2 ^ 64 - 1) (Btrunc (Bnearbyint mode_UP x)))
  end.
Definition par_chunk_size (len d : nat) : nat :=
  let c := Z.max 1 (ceil_usize (fdiv (fofZ (Z.of_nat len)) (fofZ (Z.of_nat d)))) in
  Z.to_nat (Z.min c (Z.max 1 (Z.of_nat len))).

Section Parallel.
  Universes fu du.
  Context {F : Type@{fu}} {FO : FloatOps F}.
  Variable D : digest@{fu du} F.

  (** parallel_digest.rs:6-14.  [p_sched] and [p_tick] are not in the code: the unknown future schedules of rayon,
      one per [est_quantile_at_value] call. *)
  Record parallel : Type@{du} := Par {
    p_digests : list (dst D); p_min : F; p_max : F;
    p_sched : nat -> rtree; p_tick : nat }.

  (** parallel_digest.rs:92-98 [new] *)
  Definition parallel_new (sched : nat -> rtree) (ds : list (dst D)) : parallel :=
    {| p_digests := ds; p_min := fmaxval; p_max := fminval; p_sched := sched; p_tick := 0 |}.

  (** parallel_digest.rs:28-30: rayon's zip of chunks and digests stops at the shorter; each pair is independent *)
  Fixpoint zip_add (ds : list (dst D)) (cs : list (list F)) : M (list (dst D)) :=
    match ds, cs with
    | d :: ds', c :: cs' => do d' <- d_add_buffer D d c; do r <- zip_add ds' cs'; Ret (d' :: r)
    | _, _ => Ret ds
    end.

  (** parallel_digest.rs:25-42 *)
  Definition parallel_add_buffer (s : parallel) (buffer : list F) : M parallel :=
    do cs <- chunks (par_chunk_size (length buffer) (length (p_digests s))) buffer;
    do ds <- zip_add (p_digests s) cs;
    do omax <- max_by_key (fun x => x) buffer;
    do buff_max <- unwrap omax;
    do omin <- min_by_key (fun x => x) buffer;
    do buff_min <- unwrap omin;
    Ret {| p_digests := ds; p_min := fmin (p_min s) buff_min; p_max := fmax (p_max s) buff_max;
           p_sched := p_sched s; p_tick := p_tick s |}.

  (** parallel_digest.rs:21-23 *)
  Definition parallel_add (s : parallel) (item : F) : M parallel := parallel_add_buffer s [item].

  (** parallel_digest.rs:82-84 *)
  Definition parallel_count (s : parallel) : M Z :=
    do ns <- mapM (d_count D) (p_digests s); Ret (fold_left Z.add ns 0%Z).

  (** parallel_digest.rs:44-51 *)
  Definition parallel_est_q (s : parallel) (value : F) : M (parallel * F) :=
    do rs <- mapM (fun d => do (d', e) <- d_est_q D d value;
                            do n <- d_count D d';
                            Ret (d', fmul e (fofZ n))) (p_digests s);
    let s' := {| p_digests := map fst rs; p_min := p_min s; p_max := p_max s;
                 p_sched := p_sched s; p_tick := S (p_tick s) |} in
    let est_rank := reduce f0 fadd (p_sched s (p_tick s)) (map snd rs) in
    do n <- parallel_count s';
    Ret (s', fdiv est_rank (fofZ n)).

  (** parallel_digest.rs:58: loop condition *)
  Definition par_continue (pmin pmax start en : F) : bool :=
    fgt (fdiv (fabs (fsub en start)) (fadd (fabs pmin) (fabs pmax))) (frat 1 1000000).

  (** parallel_digest.rs:58-70: the bisection loop *)
  Fixpoint par_search (fuel : nat) (s : parallel) (q start en mid : F) : M (parallel * (F * F * F)) :=
    if par_continue (p_min s) (p_max s) start en then
      match fuel with
      | O => Diverge
      | S fuel' =>
        let mid := fdiv (fadd start en) f2 in
        do (s, cur) <- parallel_est_q s mid;
        do c <- cmp_unwrap cur q;
        match c with
        | Gt => par_search fuel' s q start mid mid
        | _ => par_search fuel' s q mid en mid
        end
      end
    else Ret (s, (start, en, mid)).

  (** number of bisection steps the model allows *)
  Definition par_fuel : nat := 64.

  (** parallel_digest.rs:53-80 *)
  Definition parallel_est_v (s : parallel) (q : F) : M (parallel * F) :=
    do (s, (start, en, mid)) <- par_search par_fuel s q (p_min s) (p_max s) (fdiv (fadd (p_min s) (p_max s)) f2);
    do (s, e1) <- parallel_est_q s start;
    if fge e1 q then Ret (s, start) else
    do (s, e2) <- parallel_est_q s mid;
    if fge e2 q then Ret (s, mid) else Ret (s, en).

  Definition parallel_digest : digest@{fu du} F := {|
    dst := parallel;
    d_add := parallel_add;
    d_add_buffer := parallel_add_buffer;
    d_est_q := parallel_est_q;
    d_est_v := parallel_est_v;
    d_count := parallel_count;
  |}.
End Parallel.
