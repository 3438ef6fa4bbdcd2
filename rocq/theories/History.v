(** Invariants along histories, for any digest. *)
From Coq Require Import List Arith ZArith Lia Bool FunctionalExtensionality.
From Verif Require Import Base Floats Digest Spec.
Set Implicit Arguments.

Lemma bind_assoc {A B C} (m : M A) (f : A -> M B) (g : B -> M C) :
  bind (bind m f) g = bind m (fun a => bind (f a) g).
Proof.
  induction m as [a| | |k IH]; cbn; auto. f_equal. apply functional_extensionality; auto.
Qed.
Lemma bind_ret {A} (m : M A) : bind m (fun a => Ret a) = m.
Proof. induction m as [a| | |k IH]; cbn; auto. f_equal. apply functional_extensionality; auto. Qed.
Lemma bind_ext {A B} (m : M A) (f g : A -> M B) : (forall a, f a = g a) -> bind m f = bind m g.
Proof. intros H. f_equal. apply functional_extensionality; auto. Qed.

Section History.
  Context {F : Type}.
  Variable D : digest F.

  Lemma items_of_app (o1 o2 : list (op F)) : items_of (o1 ++ o2) = items_of o1 ++ items_of o2.
  Proof.
    induction o1 as [|[] o1 IH]; cbn; auto.
    - now rewrite IH.
    - now rewrite IH, app_assoc.
  Qed.
  Lemma items_of_cons (o : op F) ops : items_of (o :: ops) = items_of [o] ++ items_of ops.
  Proof. exact (items_of_app [o] ops). Qed.

  Lemma exec_whenever (P : dst D -> list F -> Prop) :
    (forall s its o, P s its -> whenever (fun r => P (fst r) (its ++ items_of [o])) (step D s o)) ->
    forall ops s its, P s its -> whenever (fun r => P (fst r) (its ++ items_of ops)) (exec D s ops).
  Proof.
    intros Hstep. induction ops as [|o ops IH]; intros s its HP.
    - cbn. now rewrite app_nil_r.
    - cbn [exec]. eapply whenever_bind; [apply Hstep; eassumption|].
      intros [s' a] H. eapply whenever_bind; [apply IH; exact H|].
      intros [s'' b] H'. cbn [fst whenever always] in *. rewrite items_of_cons, app_assoc. exact H'.
  Qed.

  (** [ok its o]: the call [o] is admissible after items [its] *)
  Variable ok : list F -> op F -> Prop.
  Fixpoint ok_hist (its : list F) (ops : list (op F)) : Prop :=
    match ops with [] => True | o :: ops' => ok its o /\ ok_hist (its ++ items_of [o]) ops' end.

  Lemma exec_always (P : dst D -> list F -> Prop) :
    (forall s its o, P s its -> ok its o -> always (fun r => P (fst r) (its ++ items_of [o])) (step D s o)) ->
    forall ops s its, P s its -> ok_hist its ops ->
      always (fun r => P (fst r) (its ++ items_of ops)) (exec D s ops).
  Proof.
    intros Hstep. induction ops as [|o ops IH]; intros s its HP Hok.
    - cbn. now rewrite app_nil_r.
    - destruct Hok as [Ho Hok]. cbn [exec]. eapply always_bind; [apply Hstep; eassumption|].
      intros [s' a] H. eapply always_bind; [apply IH; [exact H|exact Hok]|].
      intros [s'' b] H'. cbn [fst whenever always] in *. rewrite items_of_cons, app_assoc. exact H'.
  Qed.

  Lemma exec_app s (o1 o2 : list (op F)) :
    exec D s (o1 ++ o2) =
    bind (exec D s o1) (fun r => bind (exec D (fst r) o2) (fun r' => Ret (fst r', snd r ++ snd r'))).
  Proof.
    revert s; induction o1 as [|o o1 IH]; intros s; cbn.
    - rewrite <- (bind_ret (exec D s o2)) at 1. apply bind_ext. intros []; reflexivity.
    - rewrite bind_assoc. apply bind_ext. intros [s' a]. rewrite IH, !bind_assoc. apply bind_ext.
      intros [s'' b]. cbn. rewrite bind_assoc. apply bind_ext. intros [s3 c]. cbn. now rewrite app_assoc.
  Qed.
End History.
