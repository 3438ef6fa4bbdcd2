(** Model of the random generators of /repo/src/util/mod.rs, and what they return. *)
From Coq Require Import List Arith ZArith Lia Bool Reals Lra.
From Flocq Require Import Core BinarySingleNaN.
From Verif Require Import Base Floats IEEE Digest Spec FloatFacts TDigest.
Set Implicit Arguments.

(* ------------------------------------------------------------------ *)
(** * The generators *)

Section Gens.
  Context {F : Type} {FO : FloatOps F}.
  (** [F::from(x)] for an f64 x; [None] where the conversion fails (num_traits' versions differ on f64 numbers too large for f32) *)
  Variable from64 : f64 -> option F.
  (** [draw i]: the i-th sample (an f64) taken from the distribution *)
  Variable draw : nat -> f64.

  Definition each {A} (size : Z) (f : nat -> M A) : M (list A) := mapM f (seq 0 (Z.to_nat size)).

  (** util/mod.rs:24-33; [draw] from Uniform(0, 1001).  [size] is an i32, a negative one gives the empty range *)
  Definition gen_uniform_vec (size : Z) : M (list F) := each size (fun i => unwrap (from64 (draw i))).

  (** util/mod.rs:38-47; [draw] from Uniform(-20, 20), [tan] is [f64::tan] *)
  Definition gen_uniform_tan_vec (tan : f64 -> f64) (size : Z) : M (list F) := each size (fun i => unwrap (from64 (tan (draw i)))).

  (** util/mod.rs:91-102 *)
  Definition gen_uniform_centroid_vec (size : Z) : M (list (centroid F)) :=
    do l <- gen_uniform_vec size; Ret (map (fun x => Cen x f1) l).

  (** util/mod.rs:107-119; the mean is drawn before the weight *)
  Definition gen_uniform_centroid_random_weight_vec (size : Z) : M (list (centroid F)) :=
    each size (fun i => do m <- unwrap (from64 (draw (2 * i))); do w <- unwrap (from64 (draw (2 * i + 1))); Ret (Cen m w)).

  (** util/mod.rs:53-63; [exp_new lambda] is [Exp::new(lambda.to_f64().unwrap())] with its samples, [None] for an error *)
  Definition gen_uniform_exp_vec (exp_new : F -> option (nat -> f64)) (size : Z) (lambda : F) : M (list F) :=
    do e <- unwrap (exp_new lambda);
    each size (fun i => unwrap (from64 (fsub (fneg (e i)) f1))).
End Gens.

(** the conversions of the two float types *)
Definition f64_from (x : f64) : option f64 := Some x.
Definition f32_from (x : f64) : option f32 := Some (bconv 24 128 x).

(* ------------------------------------------------------------------ *)
(** * Contracts *)

(** A conversion rounds to nearest, and does not fail where the result is finite. *)
Record conv_ok {F} {FO : FloatOps F} {FL : FloatLaws F} (c : f64 -> option F) : Prop := {
  cv_some : forall x r r', fval x = XFin r -> frnd (F := F) r = XFin r' -> exists y, c x = Some y;
  cv_val : forall x y r, fval x = XFin r -> c x = Some y -> fval y = frnd (F := F) r }.

Lemma f64_from_ok : conv_ok f64_from.
Proof.
  split; [unfold f64_from; eauto|]. intros x y r Hx [= <-]. rewrite Hx. symmetry. apply frnd_exact. exact (fval_exact Hx).
Qed.
Lemma f32_from_ok : conv_ok f32_from.
Proof. split; [unfold f32_from; eauto|]. intros x y r Hx [= <-]. exact (bconv_fin x Hx). Qed.

(** samples of [Uniform::from(a..b)], as documented: in [a, b) *)
Definition uniform_in (a b : R) (draw : nat -> f64) : Prop := forall i, exists r, fval (draw i) = XFin r /\ (a <= r < b)%R.
(** samples of an exponential distribution: not negative *)
Definition exp_draws (draw : nat -> f64) : Prop := forall i, exists r, fval (draw i) = XFin r /\ (0 <= r)%R.

(* ------------------------------------------------------------------ *)
(** * What they return *)

Lemma each_always {A} (P : nat -> A -> Prop) size (f : nat -> M A) : (forall i, (Z.of_nat i < size)%Z -> always (P i) (f i)) ->
  always (fun l => length l = Z.to_nat size /\ forall i x, nth_error l i = Some x -> P i x) (each size f).
Proof.
  intros H. unfold each. assert (forall n s, (forall i, s <= i < s + n -> always (P i) (f i)) ->
    always (fun l => length l = n /\ forall i x, nth_error l i = Some x -> P (s + i) x) (mapM f (seq s n))) as G.
  { induction n as [|n IH]; intros s Hs; [split; [reflexivity|intros [|] x E; discriminate]|]. cbn [seq mapM].
    eapply always_bind; [apply Hs; lia|]. intros y Hy. eapply always_bind; [apply (IH (S s)); intros; apply Hs; lia|].
    intros l [Hl1 Hl2]. split; [cbn; lia|]. intros [|i] x E; cbn in E; [injection E as <-; now rewrite Nat.add_0_r|].
    replace (s + S i) with (S s + i) by lia. auto. }
  specialize (G (Z.to_nat size) 0). cbn in G. apply G. intros i Hi. apply H. lia.
Qed.
Lemma each_whenever {A} (P : nat -> A -> Prop) size (f : nat -> M A) : (forall i, (Z.of_nat i < size)%Z -> whenever (P i) (f i)) ->
  whenever (fun l => length l = Z.to_nat size /\ forall i x, nth_error l i = Some x -> P i x) (each size f).
Proof.
  intros H. unfold each. assert (forall n s, (forall i, s <= i < s + n -> whenever (P i) (f i)) ->
    whenever (fun l => length l = n /\ forall i x, nth_error l i = Some x -> P (s + i) x) (mapM f (seq s n))) as G.
  { induction n as [|n IH]; intros s Hs; [split; [reflexivity|intros [|] x E; discriminate]|]. cbn [seq mapM].
    eapply whenever_bind; [apply Hs; lia|]. intros y Hy. eapply whenever_bind; [apply (IH (S s)); intros; apply Hs; lia|].
    intros l [Hl1 Hl2]. split; [cbn; lia|]. intros [|i] x E; cbn in E; [injection E as <-; now rewrite Nat.add_0_r|].
    replace (s + S i) with (S s + i) by lia. auto. }
  specialize (G (Z.to_nat size) 0). cbn in G. apply G. intros i Hi. apply H. lia.
Qed.

Section Returns.
  Context {F : Type} {FO : FloatOps F} {FL : FloatLaws F}.
  Variable from64 : f64 -> option F.
  Hypothesis Hc : conv_ok from64.

  (** the i-th value of a vector is the i-th sample, rounded, and within [a, b] *)
  Definition sampled (a b : R) (d : f64) (x : F) : Prop :=
    exists r r', fval d = XFin r /\ fval x = frnd (F := F) r /\ fval x = XFin r' /\ (a <= r' <= b)%R.

  Lemma conv_in d r a b : fval d = XFin r -> fexact (F := F) a -> fexact (F := F) b -> (a <= r <= b)%R ->
    always (sampled a b d) (unwrap (from64 d)).
  Proof.
    intros Hd Ha Hb Hr. destruct (frnd_range Ha Hb Hr) as (r' & E & Hr'). destruct (cv_some Hc _ Hd E) as [y Ey]. rewrite Ey. cbn.
    exists r, r'. pose proof (cv_val Hc _ Hd Ey) as Hy. split; [exact Hd|]. split; [exact Hy|]. split; [congruence|exact Hr'].
  Qed.

  Lemma ints z : (Z.abs z <= 4096)%Z -> fexact (F := F) (IZR z).
  Proof. intros H. apply fint_exact. pose proof (fint_ge (F := F)). lia. Qed.

  Theorem uniform_returns draw size : uniform_in 0 1001 draw ->
    always (fun l => length l = Z.to_nat size /\ forall i x, nth_error l i = Some x -> sampled 0 1001 (draw i) x) (gen_uniform_vec from64 draw size).
  Proof.
    intros H. apply (each_always (fun i => sampled 0 1001 (draw i))). intros i _. destruct (H i) as (r & Hr & Hb).
    apply conv_in with r; auto; [apply (ints 0)|apply (ints 1001)|]; try lia. lra.
  Qed.

  (** a sequence of numbers that are not NaN, each the converted tangent *)
  Theorem tan_returns (tan : f64 -> f64) draw size : uniform_in (-20) 20 draw ->
    (forall x r, fval x = XFin r -> (-20 <= r < 20)%R -> exists t, fval (tan x) = XFin t) ->
    whenever (fun l => length l = Z.to_nat size /\ forall i x, nth_error l i = Some x -> exists t, fval (tan (draw i)) = XFin t /\ fval x = frnd (F := F) t)
      (gen_uniform_tan_vec from64 draw tan size).
  Proof.
    intros H Ht. apply (each_whenever (fun i x => exists t, fval (tan (draw i)) = XFin t /\ fval x = frnd (F := F) t)). intros i _.
    destruct (H i) as (r & Hr & Hb). destruct (Ht _ _ Hr Hb) as (t & E). destruct (from64 (tan (draw i))) as [y|] eqn:Ey; [|exact I]. cbn. exists t. split; [exact E|].
    exact (cv_val Hc _ E Ey).
  Qed.

  Theorem centroid_returns draw size : uniform_in 0 1001 draw ->
    always (fun l => length l = Z.to_nat size /\ forall i c, nth_error l i = Some c -> sampled 0 1001 (draw i) (mean c) /\ weight c = f1)
      (gen_uniform_centroid_vec from64 draw size).
  Proof.
    intros H. unfold gen_uniform_centroid_vec. eapply always_bind; [exact (uniform_returns size H)|]. intros l [H1 H2]. split; [now rewrite map_length|].
    intros i c E. rewrite nth_error_map in E. destruct (nth_error l i) as [x|] eqn:Ex; [|discriminate]. injection E as <-. split; [exact (H2 i x Ex)|reflexivity].
  Qed.

  Theorem random_weight_returns draw size : uniform_in 0 1001 draw ->
    always (fun l => length l = Z.to_nat size /\ forall i c, nth_error l i = Some c ->
      sampled 0 1001 (draw (2 * i)) (mean c) /\ sampled 0 1001 (draw (2 * i + 1)) (weight c)) (gen_uniform_centroid_random_weight_vec from64 draw size).
  Proof.
    intros H. apply (each_always (fun i c => sampled 0 1001 (draw (2 * i)) (mean c) /\ sampled 0 1001 (draw (2 * i + 1)) (weight c))). intros i _.
    assert (forall j, always (sampled 0 1001 (draw j)) (unwrap (from64 (draw j)))) as G.
    { intros j. destruct (H j) as (r & Hr & Hb). apply conv_in with r; auto; [apply (ints 0)|apply (ints 1001)|]; try lia. lra. }
    eapply always_bind; [apply G|]. intros m Hm. eapply always_bind; [apply G|]. intros w Hw. split; assumption.
  Qed.

  (** exponential samples: at most -1 *)
  Lemma exp_step d r b : fval d = XFin r -> (0 <= r <= IZR b)%R -> (b < 2 ^ 53)%Z ->
    exists s, fval (fsub (fneg d) (f1 : f64)) = XFin s /\ (IZR (- b - 1) <= s <= -1)%R.
  Proof using Type.
    intros Hd Hr Hb. assert (fval (fneg d) = XFin (- r)) as Hn by (rewrite fneg_val, Hd; reflexivity).
    assert (0 <= b)%Z as H0 by (apply le_IZR; lra).
    rewrite (fsub_fin Hn (fval_f1 (F := f64))). apply frnd_range; [|apply (fint_exact (-1)); vm_compute; discriminate|rewrite minus_IZR, opp_IZR; lra].
    apply (fint_exact (- b - 1)). change (fint (F := f64)) with (2 ^ 53)%Z. lia.
  Qed.
  Theorem exp_returns exp_new draw size lambda b : exp_new lambda = Some draw -> exp_draws draw ->
    (b < 2 ^ 53)%Z -> (b < fint (F := F))%Z -> (forall i r, fval (draw i) = XFin r -> (r <= IZR b)%R) ->
    always (fun l => length l = Z.to_nat size /\ forall i x, nth_error l i = Some x -> sampled (IZR (- b - 1)) (-1) (fsub (fneg (draw i)) f1) x)
      (gen_uniform_exp_vec from64 exp_new size lambda).
  Proof.
    intros E H H53 Hf Hb. unfold gen_uniform_exp_vec. rewrite E. cbn [unwrap bind].
    apply (each_always (fun i => sampled (IZR (- b - 1)) (-1) (fsub (fneg (draw i)) f1))). intros i _. destruct (H i) as (r & Hr & H0).
    destruct (exp_step (draw i) Hr (conj H0 (Hb i r Hr)) H53) as (s & Es & Hs).
    assert (0 <= b)%Z as Hb0 by (apply le_IZR; pose proof (Hb i r Hr); lra).
    apply conv_in with s; auto; [apply fint_exact; lia|apply (ints (-1)); lia].
  Qed.
  Theorem exp_panics exp_new size lambda : exp_new lambda = None -> gen_uniform_exp_vec from64 exp_new size lambda = Panic.
  Proof. intros E. unfold gen_uniform_exp_vec. now rewrite E. Qed.
End Returns.
