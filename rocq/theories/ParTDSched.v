(** When a ParTDigest flushes (/repo/src/t_digest/par_t_digest.rs:58-128). *)
From Coq Require Import List Arith ZArith Lia Bool.
From Verif Require Import Base Floats Digest TDigest Spec History.
Set Implicit Arguments.

(** ** Specification: the items held back, and the batches delivered, with room for [c] items *)
Section Spec.
  Context {F : Type}.
  Variable c : nat.
  Definition keep (b : list F) : list F := if length b <=? c then b else [].
  Definition full (b : list F) : list (list F) := if length b <=? c then [] else [b].
  Definition rest (b : list F) : list (list F) := match b with [] => [] | _ => [b] end.
  Fixpoint held (b : list F) (ops : list (op F)) : list F :=
    match ops with
    | [] => b
    | Add x :: ops => held (keep (b ++ [x])) ops
    | AddBuf l :: ops => held (keep (b ++ l)) ops
    | _ :: ops => held [] ops
    end.
  Fixpoint batches (b : list F) (ops : list (op F)) : list (list F) :=
    match ops with
    | [] => []
    | Add x :: ops => full (b ++ [x]) ++ batches (keep (b ++ [x])) ops
    | AddBuf l :: ops => full (b ++ l) ++ batches (keep (b ++ l)) ops
    | _ :: ops => rest b ++ batches [] ops
    end.
End Spec.

Section Sched.
  Context {F : Type} {FO : FloatOps F}.
  Variable cfg : tcfg F.
  Variables (threads capacity : nat) (creator : tdigest F).
  Notation PD := (par_t_digest cfg threads capacity creator).
  Notation flush := (pt_flush cfg threads creator).

  (** what a flush does to the digest, given the items to deliver *)
  Definition deliver (d : tdigest F) (b : list F) : M (tdigest F) := liftM (@pt_digest F) (flush {| pt_digest := d; pt_buffer := b |}).

  Lemma bind_ret {A B} (m : M A) (f : A -> M B) b : bind m f = Ret b -> exists a, m = Ret a /\ f a = Ret b.
  Proof. destruct m; cbn; try discriminate. eauto. Qed.

  Lemma flush_empty s s' : flush s = Ret s' -> pt_buffer s' = [].
  Proof.
    unfold pt_flush. destruct (pt_buffer s) eqn:E; [intros [= <-]; exact E|]. intros H.
    do 6 (apply bind_ret in H as (? & ? & H)). cbv zeta in H. apply bind_ret in H as (? & ? & H). injection H as <-. reflexivity.
  Qed.

  Lemma flush_deliver s s' : flush s = Ret s' -> foldM deliver (pt_digest s) (rest (pt_buffer s)) = Ret (pt_digest s') /\ pt_buffer s' = [].
  Proof.
    intros H. split; [|eapply flush_empty; eauto]. destruct s as [d b]. cbn [pt_digest pt_buffer] in *. destruct b as [|x b]; cbn [rest foldM].
    - cbn in H. injection H as <-. reflexivity.
    - unfold deliver. rewrite H. reflexivity.
  Qed.

  Lemma foldM_split {A B} (f : A -> B -> M A) a l l' : foldM f a (l ++ l') = bind (foldM f a l) (fun a' => foldM f a' l').
  Proof. revert a. induction l as [|x l IH]; intros a; cbn [foldM app]; [reflexivity|]. rewrite bind_assoc. apply bind_ext. auto. Qed.

  Lemma add_deliver s l s' : pt_add_buffer cfg threads capacity creator s l = Ret s' ->
    foldM deliver (pt_digest s) (full capacity (pt_buffer s ++ l)) = Ret (pt_digest s') /\ pt_buffer s' = keep capacity (pt_buffer s ++ l).
  Proof.
    unfold pt_add_buffer, full, keep. cbv zeta. cbn [pt_buffer]. destruct (Nat.ltb_spec capacity (length (pt_buffer s ++ l))) as [L|L]; intros H.
    - destruct (Nat.leb_spec (length (pt_buffer s ++ l)) capacity); [lia|]. apply flush_deliver in H as [H1 H2]. cbn [pt_digest pt_buffer] in *.
      split; auto. destruct (pt_buffer s ++ l); cbn [length] in *; [lia|]. exact H1.
    - destruct (Nat.leb_spec (length (pt_buffer s ++ l)) capacity); [|lia]. injection H as <-. auto.
  Qed.

  Theorem pt_schedule_from ops : forall s r, exec PD s ops = Ret r ->
    foldM deliver (pt_digest s) (batches capacity (pt_buffer s) ops) = Ret (pt_digest (fst r)) /\ pt_buffer (fst r) = held capacity (pt_buffer s) ops.
  Proof.
    induction ops as [|o ops IH]; intros s r H; cbn [exec] in H.
    - injection H as <-. split; reflexivity.
    - apply bind_ret in H as ([s1 a] & H1 & H). apply bind_ret in H as ([s2 b] & H2 & H). injection H as <-. apply IH in H2 as [I1 I2]. cbn [fst] in *.
      destruct o as [x|l|v|q]; cbn [step batches held] in *; apply bind_ret in H1 as (s3 & H1 & H3).
      + injection H3 as <- <-. cbn [d_add par_t_digest] in H1. unfold pt_add in H1. apply add_deliver in H1 as [J1 J2].
        rewrite foldM_split, J1. cbn [bind]. rewrite J2 in *. auto.
      + injection H3 as <- <-. cbn [d_add_buffer par_t_digest] in H1. apply add_deliver in H1 as [J1 J2].
        rewrite foldM_split, J1. cbn [bind]. rewrite J2 in *. auto.
      + destruct s3 as [s3 a3]. injection H3 as <- <-. cbn [d_est_q par_t_digest] in H1. apply bind_ret in H1 as (s4 & H1 & H4).
        apply bind_ret in H4 as (a4 & _ & H4). injection H4 as <- <-. apply flush_deliver in H1 as [J1 J2].
        rewrite foldM_split, J1. cbn [bind]. rewrite J2 in *. auto.
      + destruct s3 as [s3 a3]. injection H3 as <- <-. cbn [d_est_v par_t_digest] in H1. apply bind_ret in H1 as (s4 & H1 & H4).
        apply bind_ret in H4 as (a4 & _ & H4). injection H4 as <- <-. apply flush_deliver in H1 as [J1 J2].
        rewrite foldM_split, J1. cbn [bind]. rewrite J2 in *. auto.
  Qed.

  Lemma keep_len (b : list F) : length (keep capacity b) <= capacity.
  Proof. unfold keep. destruct (Nat.leb_spec (length b) capacity); cbn; lia. Qed.
  Lemma held_len ops : forall b : list F, length b <= capacity -> length (held capacity b ops) <= capacity.
  Proof. induction ops as [|[x|l|v|q] ops IH]; intros b Hb; cbn [held]; auto using keep_len. apply IH. cbn. lia. apply IH. cbn. lia. Qed.

  Lemma full_keep (b : list F) : concat (full capacity b) ++ keep capacity b = b.
  Proof. unfold full, keep. destruct (length b <=? capacity); cbn; auto. now rewrite !app_nil_r. Qed.

  (** nothing is lost or repeated, and the order is kept *)
  Lemma batches_items ops : forall b : list F, concat (batches capacity b ops) ++ held capacity b ops = b ++ items_of ops.
  Proof.
    induction ops as [|[x|l|v|q] ops IH]; intros b; cbn [batches held items_of concat].
    - now rewrite app_nil_r.
    - rewrite concat_app, <- app_assoc, IH, app_assoc, full_keep, <- app_assoc. reflexivity.
    - rewrite concat_app, <- app_assoc, IH, app_assoc, full_keep, <- app_assoc. reflexivity.
    - rewrite concat_app, <- app_assoc, IH. destruct b; cbn; rewrite ?app_nil_r; reflexivity.
    - rewrite concat_app, <- app_assoc, IH. destruct b; cbn; rewrite ?app_nil_r; reflexivity.
  Qed.

  Theorem pt_schedule ops r : exec PD (pt_new creator) ops = Ret r ->
    foldM deliver creator (batches capacity [] ops) = Ret (pt_digest (fst r)) /\ pt_buffer (fst r) = held capacity [] ops /\
    length (pt_buffer (fst r)) <= capacity /\ concat (batches capacity [] ops) ++ pt_buffer (fst r) = items_of ops.
  Proof.
    intros H. apply pt_schedule_from in H as [H1 H2]. cbn [pt_new pt_digest pt_buffer] in *. split; auto. split; auto. rewrite H2. split.
    - apply held_len. cbn. lia.
    - apply batches_items.
  Qed.
End Sched.
