(** Effects, slices and sorting: the parts of Rust's core/std/rand that the modelled code relies on.
    Nothing in this file models a particular file of /repo; each definition says which library
    facility used by /repo/src it stands for. *)
From Coq Require Import List Arith ZArith NArith Lia Bool Permutation Sorted Reals Lra.
Export ListNotations.
Set Implicit Arguments.
#[global] Arguments Nat.ltb : simpl never.
#[global] Arguments Nat.leb : simpl never.
#[global] Arguments Nat.sub : simpl never.
#[global] Arguments Nat.div : simpl never.
#[global] Arguments Nat.modulo : simpl never.

(* ------------------------------------------------------------------ *)
(** * The effect of running a Rust function *)

(** [M A] is the tree of all executions of a function returning [A]:
    - [Ret a]   normal return;
    - [Panic]   any Rust panic (unwrap on None, index out of bounds, integer overflow, assert!);
    - [Diverge] the loop did not finish within the fuel given by the model: stands for a possible infinite loop;
    - [Flip k]  one sample of [Uniform::new(0, 2)] (/repo/src/rc_sketch/rc_sketch.rs:255-257):
      [k false] is the execution where 0 was drawn, [k true] the one where 1 was drawn. *)
Inductive M (A : Type) : Type :=
| Ret (a : A)
| Panic
| Diverge
| Flip (k : bool -> M A).

Arguments Panic {A}.
Arguments Diverge {A}.

Fixpoint bind {A B : Type} (m : M A) (f : A -> M B) : M B :=
  match m with
  | Ret a => f a
  | Panic => Panic
  | Diverge => Diverge
  | Flip k => Flip (fun b => bind (k b) f)
  end.

Notation "'do' x <- m ; f" := (bind m (fun x => f))
  (at level 200, x pattern, m at level 100, f at level 200, right associativity).

Definition liftM {A B} (f : A -> B) (m : M A) : M B := bind m (fun a => Ret (f a)).

(** [Option::unwrap] *)
Definition unwrap {A} (o : option A) : M A :=
  match o with Some a => Ret a | None => Panic end.

(** Total correctness for every coin outcome: never panics, never runs out of fuel, result satisfies P. *)
Fixpoint always {A} (P : A -> Prop) (m : M A) : Prop :=
  match m with
  | Ret a => P a
  | Panic => False
  | Diverge => False
  | Flip k => forall b, always P (k b)
  end.

(** Partial correctness: every execution that returns satisfies P (panics and divergence allowed). *)
Fixpoint whenever {A} (P : A -> Prop) (m : M A) : Prop :=
  match m with
  | Ret a => P a
  | Panic => True
  | Diverge => True
  | Flip k => forall b, whenever P (k b)
  end.

(** Some execution panics. *)
Fixpoint may_panic {A} (m : M A) : Prop :=
  match m with
  | Ret _ => False
  | Panic => True
  | Diverge => False
  | Flip k => exists b, may_panic (k b)
  end.

(** Every execution panics. *)
Fixpoint must_panic {A} (m : M A) : Prop :=
  match m with
  | Ret _ => False
  | Panic => True
  | Diverge => False
  | Flip k => forall b, must_panic (k b)
  end.

(** Execution for a given list of coin outcomes; [None] when the list is too short. *)
Inductive result (A : Type) := Returned (a : A) | Panicked | Diverged | NeedsCoins.
Arguments Panicked {A}. Arguments Diverged {A}. Arguments NeedsCoins {A}.

Fixpoint run {A} (m : M A) (coins : list bool) : result A :=
  match m with
  | Ret a => Returned a
  | Panic => Panicked
  | Diverge => Diverged
  | Flip k => match coins with [] => NeedsCoins | c :: cs => run (k c) cs end
  end.

(** Expectation over fair independent coins of [f] of the result (executions that do not return count 0;
    only used where [always] excludes them). *)
Fixpoint expect {A} (f : A -> R) (m : M A) : R :=
  match m with
  | Ret a => f a
  | Panic => 0%R
  | Diverge => 0%R
  | Flip k => ((expect f (k false) + expect f (k true)) / 2)%R
  end.

(** Probability of an event (a boolean test on the result). *)
Definition prob {A} (p : A -> bool) (m : M A) : R :=
  expect (fun a => if p a then 1%R else 0%R) m.

Lemma always_bind {A B} (P : A -> Prop) (Q : B -> Prop) (m : M A) (f : A -> M B) :
  always P m -> (forall a, P a -> always Q (f a)) -> always Q (bind m f).
Proof. induction m as [a0| | |k IH]; simpl; intros H Hf; auto. Qed.

Lemma always_bind_iff {A B} (Q : B -> Prop) (m : M A) (f : A -> M B) :
  always Q (bind m f) <-> always (fun a => always Q (f a)) m.
Proof. induction m as [| | |k IH]; simpl; try tauto. split; intros HH b; apply IH; auto. Qed.

Lemma always_mono {A} (P Q : A -> Prop) (m : M A) :
  always P m -> (forall a, P a -> Q a) -> always Q m.
Proof. induction m as [a0| | |k IH]; simpl; intros H Hf; auto. Qed.

Lemma always_and {A} (P Q : A -> Prop) (m : M A) :
  always P m -> always Q m -> always (fun a => P a /\ Q a) m.
Proof. induction m as [a0| | |k IH]; simpl; intros; auto. Qed.

Lemma always_whenever {A} (P : A -> Prop) (m : M A) : always P m -> whenever P m.
Proof. induction m as [a0| | |k IH]; simpl; intros; auto. Qed.

Lemma always_whenever_and {A} (P Q : A -> Prop) (m : M A) :
  always P m -> whenever Q m -> always (fun a => P a /\ Q a) m.
Proof. induction m as [a0| | |k IH]; simpl; intros; auto. Qed.

Lemma whenever_bind {A B} (P : A -> Prop) (Q : B -> Prop) (m : M A) (f : A -> M B) :
  whenever P m -> (forall a, P a -> whenever Q (f a)) -> whenever Q (bind m f).
Proof. induction m as [a0| | |k IH]; simpl; intros H Hf; auto. Qed.

Lemma whenever_mono {A} (P Q : A -> Prop) (m : M A) :
  whenever P m -> (forall a, P a -> Q a) -> whenever Q m.
Proof. induction m as [a0| | |k IH]; simpl; intros H Hf; auto. Qed.

Lemma whenever_true {A} (m : M A) : whenever (fun _ => True) m.
Proof. induction m as [a0| | |k IH]; simpl; auto. Qed.

Lemma whenever_and {A} (P Q : A -> Prop) (m : M A) :
  whenever P m -> whenever Q m -> whenever (fun a => P a /\ Q a) m.
Proof. induction m as [a0| | |k IH]; simpl; intros; auto. Qed.

(** [always] is exactly: for every coin list, the run returns a good value or merely asks for more coins;
    it never panics or diverges. *)
Lemma always_run {A} (P : A -> Prop) (m : M A) :
  always P m <->
  (forall coins, match run m coins with
                 | Returned a => P a | NeedsCoins => True | Panicked => False | Diverged => False end).
Proof.
  induction m as [a| | |k IH]; simpl.
  - split; [intros H _; exact H | intros H; exact (H [])].
  - split; [intros [] | intros H; exact (H [])].
  - split; [intros [] | intros H; exact (H [])].
  - split.
    + intros H [|c cs]; [exact I|]. apply IH; apply H.
    + intros H b. apply IH. intros coins. exact (H (b :: coins)).
Qed.

Lemma expect_bind {A B} (f : B -> R) (m : M A) (g : A -> M B) :
  expect f (bind m g) = expect (fun a => expect f (g a)) m.
Proof. induction m as [| | |k IH]; simpl; auto. rewrite !IH. reflexivity. Qed.

Lemma expect_ext_always {A} (P : A -> Prop) (f g : A -> R) (m : M A) :
  always P m -> (forall a, P a -> f a = g a) -> expect f m = expect g m.
Proof. induction m as [| | |k IH]; simpl; intros H E; auto. rewrite !IH; auto. Qed.

Lemma expect_le_always {A} (P : A -> Prop) (f g : A -> R) (m : M A) :
  always P m -> (forall a, P a -> (f a <= g a)%R) -> (expect f m <= expect g m)%R.
Proof.
  induction m as [a| | |k IH]; simpl; intros H E; auto; try lra.
  pose proof (IH false (H false) E); pose proof (IH true (H true) E); lra.
Qed.

Lemma expect_const {A} (c : R) (m : M A) :
  always (fun _ => True) m -> expect (fun _ => c) m = c.
Proof.
  induction m as [a| | |k IH]; simpl; intros H; auto; try tauto.
  rewrite !IH; auto. lra.
Qed.

Lemma expect_plus {A} (f g : A -> R) (m : M A) :
  expect (fun a => (f a + g a)%R) m = (expect f m + expect g m)%R.
Proof. induction m as [a| | |k IH]; simpl; try lra. rewrite !IH. lra. Qed.

Lemma expect_scal {A} (c : R) (f : A -> R) (m : M A) :
  expect (fun a => (c * f a)%R) m = (c * expect f m)%R.
Proof. induction m as [a| | |k IH]; simpl; try lra. rewrite !IH. lra. Qed.

(* ------------------------------------------------------------------ *)
(** * Slices *)

(** [slice::chunks(n)] for n >= 1: consecutive pieces of length n (the last may be shorter).
    [fuel] only needs to exceed the length. *)
Fixpoint chunks_fuel {A} (fuel n : nat) (l : list A) : list (list A) :=
  match fuel with
  | O => []
  | S fuel' => match l with [] => [] | _ => firstn n l :: chunks_fuel fuel' n (skipn n l) end
  end.

Definition chunks_list {A} (n : nat) (l : list A) : list (list A) := chunks_fuel (length l) n l.

(** [slice::chunks(n)] panics when n = 0 ("chunk_size must be non-zero"). *)
Definition chunks {A} (n : nat) (l : list A) : M (list (list A)) :=
  match n with O => Panic | _ => Ret (chunks_list n l) end.

(** for_each over a list with a state *)
Fixpoint foldM {S A} (f : S -> A -> M S) (s : S) (l : list A) : M S :=
  match l with [] => Ret s | a :: l' => do s' <- f s a; foldM f s' l' end.

(** for loop / map over a list, in order *)
Fixpoint mapM {A B} (f : A -> M B) (l : list A) : M (list B) :=
  match l with [] => Ret [] | a :: l' => do b <- f a; do bs <- mapM f l'; Ret (b :: bs) end.

(** Indexing [v[i]]: panics out of bounds. *)
Definition index {A} (l : list A) (i : nat) : M A := unwrap (nth_error l i).

(** [l[i] := x] (no-op out of bounds; callers index first). *)
Fixpoint set_nth {A} (l : list A) (i : nat) (x : A) : list A :=
  match l, i with
  | [], _ => []
  | _ :: l', O => x :: l'
  | a :: l', S i' => a :: set_nth l' i' x
  end.

(* ------------------------------------------------------------------ *)
(** * Stable sorting *)

Section Isort.
  Context {A : Type}.
  Variable ltb : A -> A -> bool.   (* strict order test *)

  (** Insert [x], which comes before all of [l] in the original order, keeping the sort stable. *)
  Fixpoint insert_sorted (x : A) (l : list A) : list A :=
    match l with
    | [] => [x]
    | y :: l' => if ltb y x then y :: insert_sorted x l' else x :: l
    end.

  (** The stable sort ([slice::sort_by] is documented to be stable, which determines its output). *)
  Fixpoint isort (l : list A) : list A :=
    match l with [] => [] | x :: l' => insert_sorted x (isort l') end.

  Lemma insert_sorted_perm x l : Permutation (x :: l) (insert_sorted x l).
  Proof.
    induction l as [|y l IH]; simpl; [reflexivity|].
    destruct (ltb y x); [|reflexivity].
    rewrite perm_swap. now apply perm_skip.
  Qed.

  Lemma isort_perm l : Permutation l (isort l).
  Proof.
    induction l as [|x l IH]; simpl; [reflexivity|].
    rewrite <- insert_sorted_perm. now apply perm_skip.
  Qed.

  Lemma isort_length l : length (isort l) = length l.
  Proof. symmetry; apply Permutation_length, isort_perm. Qed.
End Isort.

(* ------------------------------------------------------------------ *)
(** * List lemmas *)

Lemma chunks_fuel_concat {A} fuel n (l : list A) :
  1 <= n -> length l <= fuel -> concat (chunks_fuel fuel n l) = l.
Proof.
  intros Hn; revert l; induction fuel as [|fuel IH]; intros l Hl; simpl.
  - destruct l; simpl in *; [reflexivity|lia].
  - destruct l as [|a l]; [reflexivity|].
    cbn [concat]. rewrite IH.
    + apply firstn_skipn.
    + rewrite skipn_length. cbn [length] in *. lia.
Qed.

Lemma chunks_list_concat {A} n (l : list A) : 1 <= n -> concat (chunks_list n l) = l.
Proof. intros; apply chunks_fuel_concat; auto. Qed.

Lemma chunks_fuel_bounds {A} fuel n (l : list A) :
  1 <= n -> Forall (fun c => 1 <= length c <= n) (chunks_fuel fuel n l).
Proof.
  intros Hn; revert l; induction fuel as [|fuel IH]; intros l; simpl; [constructor|].
  destruct l as [|a l]; [constructor|].
  constructor; [|apply IH].
  rewrite firstn_length. simpl. lia.
Qed.

Lemma chunks_list_bounds {A} n (l : list A) :
  1 <= n -> Forall (fun c => 1 <= length c <= n) (chunks_list n l).
Proof. apply chunks_fuel_bounds. Qed.

(** number of chunks is the ceiling of len/n *)
Lemma chunks_fuel_count {A} fuel n (l : list A) :
  1 <= n -> length l <= fuel -> length (chunks_fuel fuel n l) = (length l + (n - 1)) / n.
Proof.
  intros Hn; revert l; induction fuel as [|fuel IH]; intros l Hl.
  - destruct l; simpl in *; [|lia]. rewrite Nat.div_small; lia.
  - destruct l as [|a l]; cbn [chunks_fuel].
    + simpl. rewrite Nat.div_small; lia.
    + cbn [length]. rewrite IH. 2:{ rewrite skipn_length. cbn [length] in *. lia. }
      rewrite skipn_length. cbn [length].
      destruct (le_lt_dec n (S (length l))) as [H|H].
      * replace (S (length l) + (n - 1)) with ((S (length l) - n + (n - 1)) + 1 * n) by lia.
        rewrite Nat.div_add by lia. lia.
      * replace (S (length l) - n) with 0 by lia.
        rewrite (Nat.div_small (0 + (n-1))) by lia.
        apply Nat.div_unique with (r := length l); lia.
Qed.

Lemma chunks_list_count {A} n (l : list A) :
  1 <= n -> length (chunks_list n l) = (length l + (n - 1)) / n.
Proof. intros; apply chunks_fuel_count; auto. Qed.

Lemma foldM_app {S A} (f : S -> A -> M S) l1 l2 s (Q : S -> Prop) :
  always Q (foldM f s (l1 ++ l2)) <-> always (fun s' => always Q (foldM f s' l2)) (foldM f s l1).
Proof.
  revert s; induction l1 as [|a l1 IH]; intros s; simpl; [tauto|].
  rewrite !always_bind_iff.
  split; intros H; eapply always_mono; try exact H; intros s' Hs'; apply IH; exact Hs'.
Qed.

Lemma set_nth_length {A} (l : list A) i x : length (set_nth l i x) = length l.
Proof. revert i; induction l as [|a l IH]; intros [|i]; simpl; auto. Qed.

Lemma nth_error_set_nth_eq {A} (l : list A) i x :
  i < length l -> nth_error (set_nth l i x) i = Some x.
Proof.
  revert i; induction l as [|a l IH]; intros [|i] H; simpl in *; try lia; auto.
  apply IH; lia.
Qed.

Lemma nth_error_set_nth_neq {A} (l : list A) i j x :
  i <> j -> nth_error (set_nth l i x) j = nth_error l j.
Proof.
  revert i j; induction l as [|a l IH]; intros [|i] [|j] H; simpl in *; try congruence; auto.
Qed.

Lemma set_nth_app_l {A} (l1 l2 : list A) i x :
  i < length l1 -> set_nth (l1 ++ l2) i x = set_nth l1 i x ++ l2.
Proof.
  revert i; induction l1 as [|a l1 IH]; intros [|i] H; simpl in *; try lia; auto.
  rewrite IH; auto; lia.
Qed.

Lemma set_nth_split {A} (l : list A) i x :
  i < length l -> set_nth l i x = firstn i l ++ x :: skipn (S i) l.
Proof.
  revert i; induction l as [|a l IH]; intros [|i] H; simpl in *; try lia; auto.
  rewrite IH by lia. reflexivity.
Qed.

(** [returns m a]: some execution of [m] returns [a]. *)
Fixpoint returns {A} (m : M A) (a : A) : Prop :=
  match m with
  | Ret a' => a' = a
  | Panic => False
  | Diverge => False
  | Flip k => exists b, returns (k b) a
  end.

Lemma returns_run {A} (m : M A) a : returns m a <-> exists coins, run m coins = Returned a.
Proof.
  induction m as [a'| | |k IH]; cbn.
  - split; [intros ->; exists []; reflexivity | intros [c H]; injection H; auto].
  - split; [tauto | intros [c H]; discriminate].
  - split; [tauto | intros [c H]; discriminate].
  - split.
    + intros [b H]. apply IH in H as [cs H]. exists (b :: cs). exact H.
    + intros [[|b cs] H]; [discriminate|]. exists b. apply IH. eauto.
Qed.

Lemma returns_bind {A B} (m : M A) (f : A -> M B) a b :
  returns m a -> returns (f a) b -> returns (bind m f) b.
Proof.
  induction m as [a'| | |k IH]; cbn; try tauto.
  - intros ->; auto.
  - intros [c H] H'. exists c. now apply IH.
Qed.

Lemma returns_bind_inv {A B} (m : M A) (f : A -> M B) b :
  returns (bind m f) b -> exists a, returns m a /\ returns (f a) b.
Proof.
  induction m as [a'| | |k IH]; cbn; try tauto.
  - eauto.
  - intros [c H]. apply IH in H as (a & H1 & H2). eauto.
Qed.

Lemma whenever_returns {A} (P : A -> Prop) (m : M A) :
  whenever P m <-> forall a, returns m a -> P a.
Proof.
  induction m as [a'| | |k IH]; cbn.
  - split; [intros H a <-; auto | auto].
  - split; [intros _ a [] | auto].
  - split; [intros _ a [] | auto].
  - split.
    + intros H a [b Hb]. eapply IH; eauto.
    + intros H b. apply IH. eauto.
Qed.

Lemma always_returns {A} (P : A -> Prop) (m : M A) a : always P m -> returns m a -> P a.
Proof. intros H. apply always_whenever in H. now apply whenever_returns. Qed.
