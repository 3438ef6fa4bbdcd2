(** Specification vocabulary: what the properties say about data and histories, stated on plain lists of items,
    independently of the digests. *)
From Coq Require Import List Arith ZArith Lia Bool Reals.
From Verif Require Import Base Floats Digest.
Set Implicit Arguments.

Section Items.
  Context {F : Type}.

  (** the items a history supplies, in order *)
  Fixpoint items_of (ops : list (op F)) : list F :=
    match ops with
    | [] => []
    | Add x :: ops' => x :: items_of ops'
    | AddBuf l :: ops' => l ++ items_of ops'
    | _ :: ops' => items_of ops'
    end.

  (** the queries of a history, each with the items supplied before it ([pre]: items before the history) *)
  Inductive query := QQuant (v : F) | QVal (q : F).
  Fixpoint queries_of (pre : list F) (ops : list (op F)) : list (list F * query) :=
    match ops with
    | [] => []
    | Add x :: ops' => queries_of (pre ++ [x]) ops'
    | AddBuf l :: ops' => queries_of (pre ++ l) ops'
    | Quant v :: ops' => (pre, QQuant v) :: queries_of pre ops'
    | Val q :: ops' => (pre, QVal q) :: queries_of pre ops'
    end.
End Items.
Arguments query F : clear implicits.

Section Ranks.
  Context {F : Type} {FO : FloatOps F}.

  (** numbers of items strictly below, equal to, at or below [v] *)
  Definition n_lt (l : list F) (v : F) : nat := length (filter (fun x => flt x v) l).
  Definition n_eq (l : list F) (v : F) : nat := length (filter (fun x => feq x v) l).
  Definition n_le (l : list F) (v : F) : nat := length (filter (fun x => fle x v) l).

  Definition no_nan (l : list F) : Prop := Forall (fun x => fisnan x = false) l.

  (** [x] is an item that can stand at (0-based) position [i] of the sorted data *)
  Definition order_stat (l : list F) (i : nat) (x : F) : Prop :=
    In x l /\ n_lt l x <= i < n_le l x.

  Definition is_min (l : list F) (m : F) : Prop := In m l /\ forall x, In x l -> fle m x = true.
  Definition is_max (l : list F) (m : F) : Prop := In m l /\ forall x, In x l -> fle x m = true.
End Ranks.

Definition sumR (l : list R) : R := fold_right Rplus 0%R l.

(** rank of [v] with ties counted half (a single tie counts nothing), as a real number *)
Definition mid_rank {F} {FO : FloatOps F} (l : list F) (v : F) : R :=
  (INR (n_lt l v) + (if 2 <=? n_eq l v then INR (n_eq l v) / 2 else 0))%R.

(** [counting D ok I]: along any use of [D] on items satisfying [ok], the relation [I s n] between the state and the
    number of items supplied is maintained by every trait call that returns, and [count] then reports [n]. *)
Record counting {F} (D : digest F) (ok : F -> Prop) (I : dst D -> nat -> Prop) : Prop := {
  ct_count : forall s n, I s n -> d_count D s = Ret (Z.of_nat n);
  ct_add : forall s n x, I s n -> ok x -> whenever (fun s' => I s' (n + 1)) (d_add D s x);
  ct_add_buffer : forall s n l, I s n -> Forall ok l -> whenever (fun s' => I s' (n + length l)) (d_add_buffer D s l);
  ct_est_q : forall s n v, I s n -> whenever (fun r => I (fst r) n) (d_est_q D s v);
  ct_est_v : forall s n q, I s n -> whenever (fun r => I (fst r) n) (d_est_v D s q);
}.

(** number of answers a history produces *)
Fixpoint n_queries {F} (ops : list (op F)) : nat :=
  match ops with
  | [] => 0
  | Quant _ :: ops' | Val _ :: ops' => S (n_queries ops')
  | _ :: ops' => n_queries ops'
  end.

(** arithmetic mean, summed from zero in order *)
Definition meanF {F} {FO : FloatOps F} (l : list F) : F :=
  fdiv (fold_left fadd l f0) (fof_nat (length l)).

(** [alone b ops b' a]: some execution of the history [ops] on the boxed digest [b] alone ends in [b'] with answers [a] *)
Definition alone {F} (ops : list (op F)) (b b' : boxed F) (a : list F) : Prop :=
  exists s', b' = Box (bx_impl b) s' /\ returns (exec (bx_impl b) (bx_state b) ops) (s', a).

(** the history seen by the mirrored half of a SymDigest *)
Definition mirror {F} {FO : FloatOps F} (o : op F) : op F :=
  match o with
  | Add x => Add (fneg x)
  | AddBuf l => AddBuf (map fneg l)
  | Quant v => Quant (fneg v)
  | Val q => Val (fsub f1 q)
  end.

(** how a SymDigest combines the answer [l] of the low digest and [h] of the mirrored high digest *)
Definition sym_combine {F} {FO : FloatOps F} (o : op F) (l h : F) : F :=
  match o with
  | Val q => if flt q fhalf then l else if fgt q fhalf then fneg h else fdiv (fadd l (fneg h)) f2
  | _ => let avg := fdiv (fadd l (fsub f1 h)) f2 in
         if flt avg fhalf then l else if fgt avg fhalf then fsub f1 h else avg
  end.

Definition is_query {F} (o : op F) : bool := match o with Quant _ | Val _ => true | _ => false end.

(** the answers of a SymDigest, from the answers of its two halves, query by query *)
Inductive sym_answers {F} {FO : FloatOps F} : list (op F) -> list F -> list F -> list F -> Prop :=
| sa_nil : sym_answers [] [] [] []
| sa_add o ops al ah a : is_query o = false -> sym_answers ops al ah a -> sym_answers (o :: ops) al ah a
| sa_query o ops l al h ah a : is_query o = true -> sym_answers ops al ah a ->
    sym_answers (o :: ops) (l :: al) (h :: ah) (sym_combine o l h :: a).

(** [m] is (numerically) the smallest / largest of the items *)
Definition has_min {F} {FO : FloatOps F} (l : list F) (m : F) : Prop :=
  (exists x, In x l /\ feq x m = true) /\ forall x, In x l -> fle m x = true.
Definition has_max {F} {FO : FloatOps F} (l : list F) (m : F) : Prop :=
  (exists x, In x l /\ feq x m = true) /\ forall x, In x l -> fle x m = true.

(** [delivered D ds cs ds']: the first digests of [ds] receive the chunks [cs], one each, the others are untouched *)
Inductive delivered {F} (D : digest F) : list (dst D) -> list (list F) -> list (dst D) -> Prop :=
| dl_nil ds : delivered D ds [] ds
| dl_cons d c d' ds cs ds' : returns (d_add_buffer D d c) d' -> delivered D ds cs ds' ->
    delivered D (d :: ds) (c :: cs) (d' :: ds').

(** finite numbers *)
Definition finite {F} {FO : FloatOps F} {FL : FloatLaws F} (x : F) : Prop := exists r, fval x = XFin r.
