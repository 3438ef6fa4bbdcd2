(** Averaging independent estimators: the MultiDigest of digests with unbiased quantile estimates is unbiased, and its mean square
    error is that of the average of independent random variables. *)
From Coq Require Import List Arith ZArith Lia Bool Permutation Reals Lra.
From Verif Require Import Base Floats XReal Digest Spec FloatFacts History LinearProofs WrapProofs MultiSymProofs.
From Verif Require Import TDigestExact TDigestHist TDigestAcc TDigestAcc2 TDigestDrift Accurate.
Set Implicit Arguments.
Set Universe Polymorphism.
Unset Universe Minimization ToSet.
Local Open Scope R_scope.

(* ------------------------------------------------------------------ *)
(** * Vocabulary *)

(** the last answer of a history, as a real number *)
Definition real (x : xr) : R := match x with XFin r => r | _ => 0 end.
Definition last_answer {S} (r : S * list xr) : R := real (last (snd r) fnan).

(** [D], started in [s0], estimates the quantile of a value without bias, after every fine history of at most [lim] items, and with
    a mean square error over the coin flips of at most [a rs v] for the items [rs] and the value [v] *)
Record unbiased (D : digest xr) (s0 : dst D) (lim : Z) (a : list R -> R -> R) : Prop := {
  ub_runs : forall ops, fine ops -> (Z.of_nat (length (items_of ops)) <= lim)%Z -> always (fun _ => True) (exec D s0 ops);
  ub_finite : forall ops rs v, fine ops -> items_of ops = map XFin rs -> rs <> [] -> (Z.of_nat (length rs) <= lim)%Z ->
    always (fun r => exists al x, snd r = al ++ [XFin x]) (exec D s0 (ops ++ [Quant (XFin v)]));
  ub_mean : forall ops rs v, fine ops -> items_of ops = map XFin rs -> rs <> [] -> (Z.of_nat (length rs) <= lim)%Z ->
    expect last_answer (exec D s0 (ops ++ [Quant (XFin v)])) = upto v rs / size rs;
  ub_mse : forall ops rs v, fine ops -> items_of ops = map XFin rs -> rs <> [] -> (Z.of_nat (length rs) <= lim)%Z ->
    expect (fun r => (last_answer r - upto v rs / size rs) ^ 2) (exec D s0 (ops ++ [Quant (XFin v)])) <= a rs v }.

(* ------------------------------------------------------------------ *)
(** * Independence *)

Lemma expect_ext {A} (f g : A -> R) (m : M A) : (forall a, f a = g a) -> expect f m = expect g m.
Proof. intros H. induction m as [a| | |k IH]; cbn [expect]; auto. now rewrite !IH. Qed.
Lemma expect_ext_whenever {A} (P : A -> Prop) (f g : A -> R) (m : M A) : whenever P m -> (forall a, P a -> f a = g a) -> expect f m = expect g m.
Proof. intros H E. induction m as [a| | |k IH]; cbn [expect whenever] in *; auto. now rewrite !IH. Qed.
Lemma mapM_len {A B} (p : A -> M B) (l : list A) : whenever (fun r => length r = length l) (mapM p l).
Proof.
  induction l as [|x l IH]; [reflexivity|]. cbn [mapM]. eapply whenever_bind; [apply whenever_true|]. intros y _. eapply whenever_bind; [exact IH|].
  intros ys E. cbn [whenever length]. now f_equal.
Qed.
Lemma expect_0 {A} (m : M A) : expect (fun _ => 0) m = 0.
Proof. induction m as [a| | |k IH]; cbn [expect]; auto. rewrite !IH. lra. Qed.

(** two computations that do not depend on each other may be exchanged *)
Lemma expect_swap {A B} (f : A -> B -> R) (m : M A) (n : M B) :
  expect (fun a => expect (f a) n) m = expect (fun b => expect (fun a => f a b) m) n.
Proof.
  induction m as [a| | |k IH]; cbn [expect]; try (now rewrite expect_0); [apply expect_ext; reflexivity|].
  rewrite !IH, <- expect_plus. unfold Rdiv. rewrite Rmult_comm, <- expect_scal. apply expect_ext. intros b. lra.
Qed.

Lemma mapM_fuse {A B C} (p : A -> M B) (q : B -> M C) (l : list A) : forall h : list C -> R,
  expect h (bind (mapM p l) (mapM q)) = expect h (mapM (fun x => bind (p x) q) l).
Proof.
  induction l as [|x l IH]; intros h; [reflexivity|]. cbn [mapM]. rewrite !bind_assoc, !expect_bind. apply expect_ext. intros y.
  rewrite bind_assoc. cbn [bind mapM]. rewrite expect_bind.
  transitivity (expect (fun ys => expect (fun c => expect (fun cs => h (c :: cs)) (mapM q ys)) (q y)) (mapM p l)).
  - apply expect_ext. intros ys. rewrite expect_bind. apply expect_ext. intros c. rewrite expect_bind. reflexivity.
  - rewrite expect_swap, expect_bind. apply expect_ext. intros c. rewrite expect_bind. cbn [expect]. rewrite <- IH, expect_bind. reflexivity.
Qed.
Lemma mapM_ret {A B C} (p : A -> M B) (g : B -> C) (l : list A) : forall h : list C -> R,
  expect h (mapM (fun x => bind (p x) (fun y => Ret (g y))) l) = expect (fun ys => h (map g ys)) (mapM p l).
Proof.
  induction l as [|x l IH]; intros h; [reflexivity|]. cbn [mapM]. rewrite bind_assoc, !expect_bind. apply expect_ext. intros y. cbn [bind].
  rewrite !expect_bind. cbn [expect map]. apply (IH (fun cs => h (g y :: cs))).
Qed.

(** the sum of independent variables *)
Section Sum.
  Context {A : Type}.
  Variables (p : A -> M xr) (mu : R).
  Definition dev (x : xr) : R := real x - mu.
  Lemma dev_mean l : Forall (fun x => always (fun _ => True) (p x) /\ expect dev (p x) = 0) l ->
    always (fun _ => True) (mapM p l) /\ expect (fun xs => sumR (map dev xs)) (mapM p l) = 0.
  Proof.
    induction 1 as [|x l [H1 H2] _ [IH1 IH2]]; [split; reflexivity|]. cbn [mapM].
    split; [eapply always_bind; [exact H1|]; intros; eapply always_bind; [exact IH1|]; intros; exact I|].
    rewrite expect_bind. transitivity (expect dev (p x)); [|exact H2]. apply expect_ext. intros y. rewrite expect_bind.
    cbn [expect map]. change (expect (fun xs => dev y + sumR (map dev xs)) (mapM p l) = dev y).
    rewrite expect_plus, IH2, expect_const by exact IH1. lra.
  Qed.
  Lemma dev_var l : Forall (fun x => always (fun _ => True) (p x) /\ expect dev (p x) = 0) l ->
    expect (fun xs => sumR (map dev xs) ^ 2) (mapM p l) = sumR (map (fun x => expect (fun y => dev y ^ 2) (p x)) l).
  Proof.
    induction 1 as [|x l [H1 H2] Hl IH]; [cbn; lra|]. destruct (dev_mean Hl) as [M1 M2]. cbn [mapM map]. rewrite expect_bind.
    transitivity (expect (fun y => dev y ^ 2 + sumR (map (fun x => expect (fun y => dev y ^ 2) (p x)) l)) (p x)).
    - apply expect_ext. intros y. rewrite expect_bind. cbn [expect map].
      transitivity (expect (fun xs => (dev y ^ 2 + 2 * dev y * sumR (map dev xs)) + sumR (map dev xs) ^ 2) (mapM p l)).
      + apply expect_ext. intros xs. change (sumR (dev y :: map dev xs)) with (dev y + sumR (map dev xs)). ring.
      + rewrite expect_plus, expect_plus, expect_scal, M2, IH, expect_const by exact M1. lra.
    - rewrite expect_plus, expect_const by exact H1. reflexivity.
  Qed.
End Sum.

(* ------------------------------------------------------------------ *)
(** * The last answer *)

(** as in History.v, for digests of any universe level *)
Lemma exec_app' (D : digest xr) (o1 o2 : list (op xr)) : forall s,
  exec D s (o1 ++ o2) = bind (exec D s o1) (fun r => bind (exec D (fst r) o2) (fun r' => Ret (fst r', snd r ++ snd r'))).
Proof.
  induction o1 as [|o o1 IH]; intros s; cbn [app exec].
  - rewrite <- (bind_ret (exec D s o2)) at 1. cbn [bind fst snd app]. apply bind_ext. intros []; reflexivity.
  - rewrite bind_assoc. apply bind_ext. intros [s' a]. rewrite IH, !bind_assoc. apply bind_ext.
    intros [s'' b]. cbn [bind fst snd]. rewrite bind_assoc. apply bind_ext. intros [s3 c]. cbn [bind fst snd]. now rewrite app_assoc.
Qed.

Lemma ask_expect (D : digest xr) s0 ops v (f : R -> R) :
  expect (fun r => f (last_answer r)) (exec D s0 (ops ++ [Quant v])) =
  expect (fun r => expect (fun r' => f (real (snd r'))) (d_est_q D (fst r) v)) (exec D s0 ops).
Proof.
  rewrite exec_app', expect_bind. apply expect_ext. intros [s al]. rewrite !expect_bind. cbn [exec step fst]. rewrite !bind_assoc, expect_bind.
  apply expect_ext. intros [s' x]. cbn [bind expect fst snd]. unfold last_answer. cbn [snd]. now rewrite app_nil_r, last_last.
Qed.

(* ------------------------------------------------------------------ *)
(** * MultiDigest *)

Section Multi.
  Notation MD := (multi_digest xr).
  Notation bx := (boxed xr).

  Definition bstep (o : op xr) (b : bx) : M bx := bind (step (bx_impl b) (bx_state b) o) (fun r => Ret (Box (bx_impl b) (fst r))).
  Definition bexec (ops : list (op xr)) (b : bx) : M bx := bind (exec (bx_impl b) (bx_state b) ops) (fun r => Ret (Box (bx_impl b) (fst r))).
  Definition bquant (v : xr) (b : bx) : M xr := bind (d_est_q (bx_impl b) (bx_state b) v) (fun r => Ret (snd r)).

  Lemma mapM_ext {A B} (p q : A -> M B) l : (forall x, p x = q x) -> mapM p l = mapM q l.
  Proof. intros H. induction l as [|x l IH]; [reflexivity|]. cbn [mapM]. now rewrite H, IH. Qed.
  Lemma query_states (f : forall D : digest xr, dst D -> xr -> M (dst D * xr)) (x : xr) (ds : list bx) (h : list bx -> R) :
    expect (fun r => h (fst r)) (multi_query f ds x) = expect h (mapM (fun b => bind (f (bx_impl b) (bx_state b) x) (fun r => Ret (Box (bx_impl b) (fst r)))) ds).
  Proof.
    unfold multi_query. rewrite expect_bind. cbn [expect fst]. rewrite <- (mapM_ret _ fst). f_equal. apply mapM_ext. intros b.
    rewrite bind_assoc. apply bind_ext. intros [s a]. reflexivity.
  Qed.
  Lemma step_states o (ds : list bx) (h : list bx -> R) : expect (fun r => h (fst r)) (step MD ds o) = expect h (mapM (bstep o) ds).
  Proof.
    unfold bstep. destruct o as [x|l|v|q]; cbn [step MD d_add d_add_buffer d_est_q d_est_v multi_digest].
    - unfold multi_add. rewrite expect_bind. cbn [expect fst]. f_equal. apply mapM_ext. intros b. cbn [step]. rewrite bind_assoc. reflexivity.
    - unfold multi_add_buffer. rewrite expect_bind. cbn [expect fst]. f_equal. apply mapM_ext. intros b. cbn [step]. rewrite bind_assoc. reflexivity.
    - rewrite expect_bind. transitivity (expect (fun r => h (fst r)) (multi_query (fun D => d_est_q D) ds v)); [apply expect_ext; intros [s a]; reflexivity|].
      rewrite query_states. f_equal. apply mapM_ext. intros b. cbn [step]. rewrite bind_assoc. apply bind_ext. intros [s a]. reflexivity.
    - rewrite expect_bind. transitivity (expect (fun r => h (fst r)) (multi_query (fun D => d_est_v D) ds q)); [apply expect_ext; intros [s a]; reflexivity|].
      rewrite query_states. f_equal. apply mapM_ext. intros b. cbn [step]. rewrite bind_assoc. apply bind_ext. intros [s a]. reflexivity.
  Qed.
  (** the final states of the members are distributed as if each had been run on its own *)
  Lemma exec_states ops : forall (ds : list bx) (h : list bx -> R), expect (fun r => h (fst r)) (exec MD ds ops) = expect h (mapM (bexec ops) ds).
  Proof.
    induction ops as [|o ops IH]; intros ds h.
    - cbn [exec expect fst]. replace (mapM (bexec []) ds) with (Ret ds); [reflexivity|].
      induction ds as [|b ds IHd]; [reflexivity|]. cbn [mapM]. rewrite <- IHd. unfold bexec. cbn [exec bind fst]. now destruct b.
    - cbn [exec]. rewrite expect_bind.
      transitivity (expect (fun r => expect h (mapM (bexec ops) (fst r))) (step MD ds o)).
      { apply expect_ext. intros [s a]. rewrite expect_bind. cbn [fst]. rewrite <- IH. apply expect_ext. intros [s' b]. reflexivity. }
      rewrite (step_states o ds (fun bs => expect h (mapM (bexec ops) bs))), <- expect_bind, mapM_fuse. f_equal. apply mapM_ext. intros b.
      unfold bstep, bexec. rewrite bind_assoc. cbn [exec]. rewrite bind_assoc. apply bind_ext. intros [s a]. cbn [bind fst bx_impl bx_state].
      rewrite bind_assoc. apply bind_ext. intros [s' a']. reflexivity.
  Qed.

  (** the answers of the members to a final query, each run on its own *)
  Definition banswer (ops : list (op xr)) (v : xr) (b : bx) : M xr := bind (bexec ops b) (bquant v).
  Definition mean_of (m : nat) (xs : list xr) : xr := fdiv (fold_left fadd xs f0) (fof_nat m).

  Lemma multi_answers ops v (ds : list bx) (f : R -> R) :
    expect (fun r => f (last_answer r)) (exec MD ds (ops ++ [Quant v])) =
    expect (fun xs => f (real (mean_of (length ds) xs))) (mapM (banswer ops v) ds).
  Proof.
    rewrite ask_expect. unfold banswer. rewrite <- mapM_fuse, expect_bind.
    transitivity (expect (fun r => expect (fun xs => f (real (mean_of (length (fst r)) xs))) (mapM (bquant v) (fst r))) (exec MD ds ops)).
    - apply expect_ext. intros [bs al]. cbn [fst d_est_q multi_digest]. unfold multi_query. rewrite expect_bind. cbn [expect snd].
      transitivity (expect (fun xs => f (real (mean_of (length bs) xs))) (mapM (fun b => bind (bind (d_est_q (bx_impl b) (bx_state b) v) (fun '(s, a) => Ret (Box (bx_impl b) s, a))) (fun r => Ret (snd r))) bs)).
      + rewrite (mapM_ret (fun b : bx => bind (d_est_q (bx_impl b) (bx_state b) v) (fun '(s, a) => Ret (Box (bx_impl b) s, a))) snd). reflexivity.
      + f_equal. apply mapM_ext. intros b. unfold bquant. rewrite bind_assoc. apply bind_ext. intros [s a]. reflexivity.
    - rewrite (exec_states ops ds (fun bs => expect (fun xs => f (real (mean_of (length bs) xs))) (mapM (bquant v) bs))).
      apply (@expect_ext_whenever _ (fun bs => length bs = length ds)); [apply mapM_len|]. intros bs ->. reflexivity.
  Qed.

  Lemma banswer_expect ops v (b : bx) (f : R -> R) :
    expect (fun x => f (real x)) (banswer ops v b) = expect (fun r => f (last_answer r)) (exec (bx_impl b) (bx_state b) (ops ++ [Quant v])).
  Proof.
    rewrite ask_expect. unfold banswer, bexec. rewrite bind_assoc, expect_bind. apply expect_ext. intros [s al]. cbn [bind fst]. unfold bquant.
    cbn [bx_impl bx_state]. rewrite expect_bind. reflexivity.
  Qed.
  Lemma banswer_finite ops v (b : bx) :
    always (fun r => exists al x, snd r = al ++ [XFin x]) (exec (bx_impl b) (bx_state b) (ops ++ [Quant v])) -> always xfinite (banswer ops v b).
  Proof.
    rewrite exec_app', always_bind_iff. intros H. unfold banswer, bexec. rewrite bind_assoc, always_bind_iff. eapply always_mono; [exact H|].
    intros [s al]. cbn [bind fst exec step]. unfold bquant. cbn [bx_impl bx_state]. rewrite !bind_assoc, !always_bind_iff. intros H1. eapply always_mono; [exact H1|].
    intros [s' x]. cbn [bind always snd fst]. rewrite app_nil_r. intros (al' & y & E). apply app_inj_tail in E as [_ ->]. exists y. reflexivity.
  Qed.
  Lemma mean_fin (rs : list R) : forall a, fold_left fadd (map XFin rs) (XFin a) = XFin (a + sumR rs).
  Proof. induction rs as [|r rs IH]; intros a; [cbn; f_equal; lra|]. cbn [map fold_left]. change (fadd (XFin a) (XFin r)) with (XFin (a + r)). rewrite IH. f_equal. change (sumR (r :: rs)) with (r + sumR rs). lra. Qed.
  Lemma mean_real (xs : list xr) m : Forall xfinite xs -> (1 <= m)%nat -> mean_of m xs = XFin (sumR (map real xs) / INR m).
  Proof.
    intros H Hm. destruct (finite_map H) as [rs ->]. unfold mean_of. change (@f0 xr _) with (XFin 0). rewrite mean_fin, Rplus_0_l.
    rewrite map_map. cbn [real]. rewrite map_id. unfold fof_nat. cbn [fofZ xr_ops fdiv xdiv].
    rewrite <- INR_IZR_INZ. assert (0 < INR m) by (apply lt_0_INR; lia). unfold rsign. now rewrite Raux.Rcompare_Gt.
  Qed.
  Lemma dev_sum mu (xs : list xr) : sumR (map (dev mu) xs) = sumR (map real xs) - mu * INR (length xs).
  Proof. induction xs as [|x xs IH]; [cbn; lra|]. cbn [length map]. rewrite S_INR. change (dev mu x + sumR (map (dev mu) xs) = real x + sumR (map real xs) - mu * (INR (length xs) + 1)). rewrite IH. unfold dev. lra. Qed.

  Variables (lim : Z) (ds : list bx) (es : list (list R -> R -> R)).
  Definition mean_mse (rs : list R) (v : R) : R := sumR (map (fun e => e rs v) es) / INR (length ds) ^ 2.
  Hypothesis Hds : ds <> [].
  Hypothesis HU : Forall2 (fun b e => unbiased (bx_impl b) (bx_state b) lim e) ds es.

  Section Run.
    Variables (ops : list (op xr)) (rs : list R) (v : R).
    Hypotheses (Hf : fine ops) (Hi : items_of ops = map XFin rs) (Hne : rs <> []) (Hl : (Z.of_nat (length rs) <= lim)%Z).
    Let mu := upto v rs / size rs.
    Let p := banswer ops (XFin v).

    Lemma members_ok : Forall (fun b => always (fun _ => True) (p b) /\ expect (dev mu) (p b) = 0) ds.
    Proof using HU Hf Hi Hne Hl.
      clear Hds. induction HU as [|b e ds' es' Hb Hr IH]; [constructor|]. constructor; [|exact (IH Hr)].
      pose proof (banswer_finite _ _ _ (ub_finite Hb v Hf Hi Hne Hl)) as HF. fold p in HF.
      assert (always (fun _ => True) (p b)) as HT by (eapply always_mono; [exact HF|auto]). split; [exact HT|].
      unfold dev. transitivity (expect real (p b) + expect (fun _ => - mu) (p b)); [rewrite <- expect_plus; apply expect_ext; intros; lra|].
      rewrite expect_const by exact HT. pose proof (banswer_expect ops (XFin v) b (fun x => x)) as E1. cbv beta in E1.
      pose proof (ub_mean Hb v Hf Hi Hne Hl) as E. unfold mu, p. change (expect real (banswer ops (XFin v) b)) with (expect (fun x => real x) (banswer ops (XFin v) b)).
      change (expect last_answer (exec (bx_impl b) (bx_state b) (ops ++ [Quant (XFin v)]))) with (expect (fun r => last_answer r) (exec (bx_impl b) (bx_state b) (ops ++ [Quant (XFin v)]))) in E. rewrite E1, E. lra.
    Qed.
    Lemma members_finite : always (fun xs => Forall xfinite xs /\ length xs = length ds) (mapM p ds).
    Proof using HU Hf Hi Hne Hl.
      clear Hds. induction HU as [|b e ds' es' Hb Hr IH]; [split; [constructor|reflexivity]|]. cbn [mapM].
      eapply always_bind; [exact (banswer_finite _ _ _ (ub_finite Hb v Hf Hi Hne Hl))|]. intros x Hx. eapply always_bind; [exact (IH Hr)|].
      intros xs [H1 H2]. cbn [always length]. split; [now constructor|now f_equal].
    Qed.
    Lemma members_mse : sumR (map (fun b => expect (fun y => dev mu y ^ 2) (p b)) ds) <= sumR (map (fun e => e rs v) es).
    Proof using HU Hf Hi Hne Hl.
      clear Hds. induction HU as [|b e ds' es' Hb Hr IH]; [apply Rle_refl|]. cbn [map].
      pose proof (ub_mse Hb v Hf Hi Hne Hl) as E. rewrite <- (banswer_expect ops (XFin v) b (fun x => (x - upto v rs / size rs) ^ 2)) in E.
      apply Rplus_le_compat; [exact E|exact (IH Hr)].
    Qed.
    Let m := length ds.
    Let Hm : 0 < INR m.
    Proof using Hds. apply lt_0_INR. unfold m. destruct ds; [congruence|cbn; lia]. Qed.
    Lemma mean_dev (f : R -> R) : expect (fun r => f (last_answer r)) (exec MD ds (ops ++ [Quant (XFin v)])) =
      expect (fun xs => f (mu + sumR (map (dev mu) xs) / INR m)) (mapM p ds).
    Proof using Hds HU Hf Hi Hne Hl.
      rewrite multi_answers. fold p. eapply expect_ext_always; [exact members_finite|]. intros xs [H1 H2]. f_equal. fold m.
      rewrite mean_real; [|exact H1|apply INR_lt; exact Hm]. cbn [real]. rewrite dev_sum, H2. fold m. field. lra.
    Qed.
    Theorem multi_mean : expect last_answer (exec MD ds (ops ++ [Quant (XFin v)])) = mu.
    Proof using Hds HU Hf Hi Hne Hl.
      refine (eq_trans (mean_dev (fun x => x)) _). cbv beta. destruct (@dev_mean _ p mu ds members_ok) as [M1 M2]. rewrite expect_plus, expect_const by exact M1. unfold Rdiv.
      transitivity (mu + / INR m * expect (fun xs => sumR (map (dev mu) xs)) (mapM p ds)); [|rewrite M2; ring].
      f_equal. rewrite <- expect_scal. apply expect_ext. intros xs. ring.
    Qed.
    Theorem multi_mse : expect (fun r => (last_answer r - mu) ^ 2) (exec MD ds (ops ++ [Quant (XFin v)])) <= mean_mse rs v.
    Proof using Hds HU Hf Hi Hne Hl.
      rewrite (mean_dev (fun x => (x - mu) ^ 2)). 
      apply Rle_trans with (/ INR m ^ 2 * expect (fun xs => sumR (map (dev mu) xs) ^ 2) (mapM p ds)).
      - rewrite <- expect_scal. right. apply expect_ext. intros xs. field. lra.
      - rewrite (@dev_var _ p mu ds members_ok). unfold mean_mse, Rdiv. fold m. rewrite Rmult_comm. apply Rmult_le_compat_r; [|exact members_mse].
        apply Rlt_le, Rinv_0_lt_compat, pow_lt, Hm.
    Qed.
  End Run.

  Theorem multi_unbiased : unbiased MD ds lim mean_mse.
  Proof using Hds HU.
    split.
    - intros ops Hf Hl. apply multi_no_new_panic. clear -HU Hf Hl. induction HU as [|b e ds es Hb Hr IH]; constructor; [exact (ub_runs Hb Hf Hl)|exact (IH Hr)].
    - intros ops rs v Hf Hi Hne Hl.
      assert (always (fun _ => True) (exec MD ds (ops ++ [Quant (XFin v)]))) as HT.
      { apply multi_no_new_panic. clear -HU Hf Hi Hne Hl. induction HU as [|b e ds es Hb Hr IH]; [constructor|]. constructor; [|exact (IH Hr)].
        eapply always_mono; [exact (ub_finite Hb v Hf Hi Hne Hl)|auto]. }
      refine (@always_mono _ _ _ _ (@always_whenever_and _ _ _ _ HT (@multi_last ds Hds ops (Quant (XFin v)) _ (fun _ _ _ => True) es eq_refl _)) _).
      + clear -HU Hf Hi Hne Hl. induction HU as [|b e ds es Hb Hr IH]; [constructor|]. constructor; [|exact (IH Hr)].
        eapply whenever_mono; [apply always_whenever; exact (ub_finite Hb v Hf Hi Hne Hl)|]. intros r (al & x & E). exists al, x. auto.
      + intros r [_ (al & xs & E & _)]. eauto.
    - intros ops rs v Hf Hi Hne Hl. exact (multi_mean v Hf Hi Hne Hl).
    - intros ops rs v Hf Hi Hne Hl. exact (multi_mse v Hf Hi Hne Hl).
  Qed.
End Multi.

(** Chebyshev: far answers are rare *)
Lemma unbiased_tail (D : digest xr) s0 lim a ops rs v t : unbiased D s0 lim a -> fine ops -> items_of ops = map XFin rs -> rs <> [] -> (Z.of_nat (length rs) <= lim)%Z -> 0 < t ->
  prob (fun r => if Rle_dec t (Rabs (last_answer r - upto v rs / size rs)) then true else false) (exec D s0 (ops ++ [Quant (XFin v)])) <= a rs v / t ^ 2.
Proof.
  intros U Hf Hi Hne Hl Ht. pose proof (ub_mse U v Hf Hi Hne Hl) as HM. pose proof (ub_finite U v Hf Hi Hne Hl) as HT.
  apply Rmult_le_reg_l with (t ^ 2); [apply pow_lt, Ht|]. replace (t ^ 2 * (a rs v / t ^ 2)) with (a rs v) by (field; lra).
  eapply Rle_trans; [|exact HM]. unfold prob. rewrite <- expect_scal. eapply expect_le_always; [exact HT|]. intros r _. cbv beta.
  destruct (Rle_dec t (Rabs (last_answer r - upto v rs / size rs))) as [H|H].
  - rewrite Rmult_1_r, <- (pow2_abs (last_answer r - upto v rs / size rs)). apply pow_incr. lra.
  - rewrite Rmult_0_r. apply pow2_ge_0.
Qed.

Lemma unbiased_weaken (D : digest xr) s0 lim (a b : list R -> R -> R) : (forall rs v, a rs v <= b rs v) -> unbiased D s0 lim a -> unbiased D s0 lim b.
Proof.
  intros H U. split; [exact (ub_runs U)|exact (ub_finite U)|exact (ub_mean U)|]. intros ops rs v Hf Hi Hne Hl.
  eapply Rle_trans; [exact (ub_mse U v Hf Hi Hne Hl)|apply H].
Qed.
(** m equal members: the mean square error is divided by m *)
Theorem multi_copies (D : digest xr) s0 lim a m : (1 <= m)%nat -> unbiased D s0 lim a ->
  unbiased (multi_digest xr) (repeat (@Box xr D s0) m) lim (fun rs v => a rs v / INR m).
Proof.
  intros Hm U. assert (repeat (@Box xr D s0) m <> []) as Hne by (destruct m; [lia|discriminate]).
  assert (Forall2 (fun b e => unbiased (bx_impl b) (bx_state b) lim e) (repeat (@Box xr D s0) m) (repeat a m)) as HU.
  { clear Hm Hne. induction m as [|m IH]; cbn [repeat]; constructor; [exact U|exact IH]. }
  refine (@unbiased_weaken _ _ _ _ _ _ (@multi_unbiased lim _ _ Hne HU)). intros rs v. unfold mean_mse. rewrite repeat_length. right.
  assert (0 < INR m) as H0 by (apply lt_0_INR; lia).
  replace (sumR (map (fun e : list R -> R -> R => e rs v) (repeat a m))) with (INR m * a rs v); [field; lra|].
  clear. induction m as [|m IH]; [cbn; ring|]. cbn [repeat map]. rewrite S_INR. change (sumR (?x :: ?l)) with (x + sumR l). rewrite <- IH. ring.
Qed.
