(** Exponential tail bounds through BufferedDigest, SymDigest and ParallelDigest. *)
From Coq Require Import List Arith ZArith Lia Bool Permutation Reals Lra.
From Verif Require Import Base Floats XReal Digest Spec FloatFacts History LinearProofs WrapProofs MultiSymProofs.
From Verif Require Import TDigestExact TDigestHist TDigestAcc TDigestAcc2 TDigestDrift RCExp Accurate AccuratePar Average SubGauss UnbiasedWrap SymAverage.
Set Implicit Arguments.
Set Universe Polymorphism.
Unset Universe Minimization ToSet.
Local Open Scope R_scope.

(* ------------------------------------------------------------------ *)
(** * BufferedDigest *)
Theorem buffered_concentrated (D : digest xr) (d : dst D) (c : nat) lim a : (1 <= c)%nat -> concentrated D d lim a ->
  concentrated (buffered_digest D) (buffered_new D d c) lim a.
Proof.
  intros Hc H ops rs v l Hf Hits Hne Hl. destruct (@buffered_expect D d c Hc ops (XFin v) Hf) as (ops' & Hf' & Hi & HE & _).
  rewrite Hits in Hi. eapply Rle_trans; [right; exact (HE (fun x => exp (l * (x - upto v rs / size rs))))|]. exact (H ops' rs v l Hf' Hi Hne Hl).
Qed.

(* ------------------------------------------------------------------ *)
(** * SymDigest *)
Section Two.
  Context {A B : Type}.
  Variables (m : M A) (n : M B) (X : A -> R) (Y : B -> R) (q0 q1 : R).
  Hypotheses (Hm : always (fun _ => True) m) (Hn : always (fun _ => True) n).
  Notation both := (both m n X Y).
  Variables (aL aH : R).
  Hypotheses (CX : forall l, expect (fun a => exp (l * (X a - q1))) m <= exp (l ^ 2 / 2 * aL)).
  Hypotheses (CY : forall l, expect (fun b => exp (l * (Y b - q0))) n <= exp (l ^ 2 / 2 * aH)).

  Lemma both_exp l : both (fun x y => exp (l * (x + y - q0 - q1))) <= exp (l ^ 2 / 2 * (aL + aH)).
  Proof using CX CY Hm.
    unfold SymAverage.both. apply Rle_trans with (expect (fun a => exp (l ^ 2 / 2 * aH) * exp (l * (X a - q1))) m).
    - eapply expect_le_always; [exact Hm|]. intros a _. apply Rle_trans with (exp (l * (X a - q1)) * expect (fun b => exp (l * (Y b - q0))) n).
      + right. rewrite <- expect_scal. apply expect_ext. intros b. rewrite <- exp_plus. f_equal. ring.
      + rewrite Rmult_comm. apply Rmult_le_compat_r; [apply Rlt_le, exp_pos|apply CY].
    - rewrite expect_scal. eapply Rle_trans; [apply Rmult_le_compat_l; [apply Rlt_le, exp_pos|apply CX]|]. right. rewrite <- exp_plus. f_equal. ring.
  Qed.
  Lemma exp_half s d : 0 < s -> (d / s) ^ 2 / 2 * s - d / s * d = - (d ^ 2 / (2 * s)).
  Proof. intros H. field. lra. Qed.
  Lemma both_over d : 0 < aL + aH -> 0 < d -> both (fun x y => exp (d / (aL + aH) * (x + y - q0 - q1) - d / (aL + aH) * d)) <= exp (- (d ^ 2 / (2 * (aL + aH)))).
  Proof using CX CY Hm Hn.
    intros Hs Hd. set (l := d / (aL + aH)). apply Rle_trans with (both (fun x y => exp (- (l * d)) * exp (l * (x + y - q0 - q1)))).
    - apply both_le; [exact Hm|exact Hn|]. intros x y. right. rewrite <- exp_plus. f_equal. ring.
    - rewrite both_scal. eapply Rle_trans; [apply Rmult_le_compat_l; [apply Rlt_le, exp_pos|apply both_exp]|]. right. rewrite <- exp_plus. f_equal.
      transitivity ((d / (aL + aH)) ^ 2 / 2 * (aL + aH) - d / (aL + aH) * d); [unfold l; ring|now apply exp_half].
  Qed.
  Lemma both_under d : 0 < aL + aH -> 0 < d -> both (fun x y => exp (- (d / (aL + aH)) * (x + y - q0 - q1) - d / (aL + aH) * d)) <= exp (- (d ^ 2 / (2 * (aL + aH)))).
  Proof using CX CY Hm Hn.
    intros Hs Hd. set (l := d / (aL + aH)). apply Rle_trans with (both (fun x y => exp (- (l * d)) * exp (- l * (x + y - q0 - q1)))).
    - apply both_le; [exact Hm|exact Hn|]. intros x y. right. rewrite <- exp_plus. f_equal. ring.
    - rewrite both_scal. eapply Rle_trans; [apply Rmult_le_compat_l; [apply Rlt_le, exp_pos|apply both_exp]|]. right. rewrite <- exp_plus. f_equal.
      transitivity ((d / (aL + aH)) ^ 2 / 2 * (aL + aH) - d / (aL + aH) * d); [unfold l; field; lra|now apply exp_half].
  Qed.
  Lemma one_exp x : 0 <= x -> 1 <= exp x.
  Proof. intros H. rewrite <- exp_0. now apply exp_mono. Qed.

  Lemma pick_low_exp t bound : q0 + q1 < 1 -> 0 < aL + aH -> expect (fun a => far q1 t (X a)) m <= bound ->
    both (fun x y => far q1 t (pick x y)) <= bound + exp (- ((1 - q0 - q1) ^ 2 / (2 * (aL + aH)))).
  Proof using CX CY Hm Hn.
    intros Hq Hs HB. assert (0 < 1 - q0 - q1) as Hd by lra. set (d := 1 - q0 - q1) in *.
    apply Rle_trans with (both (fun x y => far q1 t x + exp (d / (aL + aH) * (x + y - q0 - q1) - d / (aL + aH) * d))).
    - apply both_le; [exact Hm|exact Hn|]. intros x y. unfold pick. set (E := exp _). assert (0 < E) as HE by apply exp_pos.
      assert (0 <= far q1 t x) as H0 by (unfold far; destruct (Rle_dec _ _); lra).
      destruct (Rlt_dec (x + y) 1) as [Hlt|Hge]; [lra|]. pose proof (far_1 q1 t (if Rlt_dec 1 (x + y) then y else (x + y) / 2)).
      assert (1 <= E); [|lra]. apply one_exp. assert (0 < d / (aL + aH)) by (apply Rdiv_lt_0_compat; assumption).
      rewrite <- Rmult_minus_distr_l. apply Rmult_le_pos; [lra|unfold d; lra].
    - rewrite both_plus. apply Rplus_le_compat; [|now apply both_over]. eapply Rle_trans; [right; exact (@both_X A B m n X Y Hn (fun x => far q1 t x))|exact HB].
  Qed.
  Lemma pick_high_exp t bound : 1 < q0 + q1 -> 0 < aL + aH -> expect (fun b => far q0 t (Y b)) n <= bound ->
    both (fun x y => far q0 t (pick x y)) <= bound + exp (- ((q0 + q1 - 1) ^ 2 / (2 * (aL + aH)))).
  Proof using CX CY Hm Hn.
    intros Hq Hs HB. assert (0 < q0 + q1 - 1) as Hd by lra. set (d := q0 + q1 - 1) in *.
    apply Rle_trans with (both (fun x y => far q0 t y + exp (- (d / (aL + aH)) * (x + y - q0 - q1) - d / (aL + aH) * d))).
    - apply both_le; [exact Hm|exact Hn|]. intros x y. unfold pick. set (E := exp _). assert (0 < E) as HE by apply exp_pos.
      assert (0 <= far q0 t y) as H0 by (unfold far; destruct (Rle_dec _ _); lra).
      assert (x + y <= 1 -> 1 <= E) as H1.
      { intros Hle. apply one_exp. assert (0 < d / (aL + aH)) by (apply Rdiv_lt_0_compat; assumption).
        replace (- (d / (aL + aH)) * (x + y - q0 - q1) - d / (aL + aH) * d) with (d / (aL + aH) * (q0 + q1 - (x + y) - d)) by ring.
        apply Rmult_le_pos; [lra|unfold d; lra]. }
      destruct (Rlt_dec (x + y) 1) as [Hlt|Hge]; [pose proof (far_1 q0 t x); lra|]. destruct (Rlt_dec 1 (x + y)) as [Hgt|Hle]; [lra|].
      pose proof (far_1 q0 t ((x + y) / 2)). lra.
    - rewrite both_plus. apply Rplus_le_compat; [|now apply both_under]. eapply Rle_trans; [right; exact (@both_Y A B m n X Y Hm (fun y => far q0 t y))|exact HB].
  Qed.
End Two.

Section Sym.
  Variables (D : digest xr) (l0 h0 : dst D) (lim : Z) (uL uH aL aH bL bH : list R -> R -> R).
  Hypotheses (UL : unbiased D l0 lim uL) (UH : unbiased D h0 lim uH).
  Hypotheses (CL : concentrated D l0 lim aL) (CL' : concentrated D l0 lim bL) (CH : concentrated D h0 lim aH) (CH' : concentrated D h0 lim bH).
  Variables (ops : list (op xr)) (rs : list R) (v : R).
  Hypotheses (Hf : fine ops) (Hi : items_of ops = map XFin rs) (Hne : rs <> []) (Hlen : (Z.of_nat (length rs) <= lim)%Z).
  Let q0 := below v rs / size rs.
  Let q1 := upto v rs / size rs.
  Let b := bL rs v + bH (map Ropp rs) (- v).
  Let PL := exec D l0 (ops ++ [Quant (XFin v)]).
  Let PH := exec D h0 (map mirror ops ++ [Quant (XFin (- v))]).
  Let Hne' : map Ropp rs <> [].
  Proof using Hne. destruct rs; [congruence|discriminate]. Qed.
  Let Hlen' : (Z.of_nat (length (map Ropp rs)) <= lim)%Z.
  Proof using Hlen. now rewrite map_length. Qed.
  Let Hs : 0 < size rs.
  Proof using Hne. apply lt_0_INR. destruct rs; [congruence|cbn; lia]. Qed.
  Let SL_ : sound D l0 ops.
  Proof using UL Hf Hi Hlen. apply (unbiased_sound UL Hf). now rewrite Hi, map_length. Qed.
  Let SH_ : sound D h0 (map mirror ops).
  Proof using UH Hf Hi Hlen. apply (unbiased_sound UH (fine_mirror Hf)). now rewrite (mirror_items _ _ Hi), !map_length. Qed.
  Let FL_ := ub_finite UL v Hf Hi Hne Hlen.
  Let FH_ := ub_finite UH (- v) (fine_mirror Hf) (mirror_items _ _ Hi) Hne' Hlen'.
  Let TL : always (fun _ => True) PL.
  Proof using UL Hf Hi Hne Hlen. eapply always_mono; [exact FL_|auto]. Qed.
  Let TH : always (fun _ => True) PH.
  Proof using UH Hf Hi Hne Hlen. eapply always_mono; [exact FH_|auto]. Qed.
  Let upto_high : 1 - upto (- v) (map Ropp rs) / size (map Ropp rs) = q0.
  Proof using Hne. destruct (below_upto_mirror (- v) rs) as [_ ->]. rewrite map_length, Ropp_involutive. unfold q0. field. lra. Qed.
  Let XL l : expect (fun r => exp (l * (last_answer r - q1))) PL <= exp (l ^ 2 / 2 * bL rs v).
  Proof using CL' Hf Hi Hne Hlen. exact (@CL' ops rs v l Hf Hi Hne Hlen). Qed.
  Let XH a (C : concentrated D h0 lim a) l : expect (fun r => exp (l * (1 - last_answer r - q0))) PH <= exp (l ^ 2 / 2 * a (map Ropp rs) (- v)).
  Proof using Hf Hi Hne Hlen.
    pose proof (@C (map mirror ops) (map Ropp rs) (- v) (- l) (fine_mirror Hf) (mirror_items _ _ Hi) Hne' Hlen') as E. fold PH in E.
    replace ((- l) ^ 2) with (l ^ 2) in E by ring. eapply Rle_trans; [|exact E]. right. apply expect_ext. intros r. f_equal. rewrite <- upto_high. ring.
  Qed.
  Lemma far_prob {S} (c t : R) (g : S -> R) (m : M S) : expect (fun r => far c t (g r)) m = prob (fun r => if Rle_dec t (Rabs (g r - c)) then true else false) m.
  Proof using Type. unfold prob. apply expect_ext. intros r. unfold far. destruct (Rle_dec t (Rabs (g r - c))); reflexivity. Qed.

  Theorem sym_low_exp t : 0 < aL rs v -> 0 < b -> q0 + q1 < 1 -> 0 < t ->
    prob (fun r => if Rle_dec t (Rabs (last_answer r - q1)) then true else false) (exec (sym_digest D) (Sym D l0 h0) (ops ++ [Quant (XFin v)]))
    <= 2 * exp (- (t ^ 2 / (2 * aL rs v))) + exp (- ((1 - q0 - q1) ^ 2 / (2 * b))).
  Proof using UL UH CL CL' CH' Hf Hi Hne Hlen.
    intros Ha Hb H1 Ht. eapply Rle_trans; [right; symmetry; apply (@far_prob _ q1 t last_answer)|].
    eapply Rle_trans; [right; exact (@sym_expect D l0 h0 ops v (fun x => far q1 t x) (proj1 Hf) SL_ SH_ FL_ FH_)|].
    apply (@pick_low_exp _ _ _ _ _ _ q0 q1 TL TH (bL rs v) (bH (map Ropp rs) (- v)) XL (XH CH') t _ H1 Hb).
    eapply Rle_trans; [right; apply (@far_prob _ q1 t last_answer)|]. exact (@concentrated_tail D l0 lim aL uL ops rs v t UL CL Hf Hi Hne Hlen Ha Ht).
  Qed.
  Theorem sym_high_exp t : 0 < aH (map Ropp rs) (- v) -> 0 < b -> 1 < q0 + q1 -> 0 < t ->
    prob (fun r => if Rle_dec t (Rabs (last_answer r - q0)) then true else false) (exec (sym_digest D) (Sym D l0 h0) (ops ++ [Quant (XFin v)]))
    <= 2 * exp (- (t ^ 2 / (2 * aH (map Ropp rs) (- v)))) + exp (- ((q0 + q1 - 1) ^ 2 / (2 * b))).
  Proof using UL UH CL' CH CH' Hf Hi Hne Hlen.
    intros Ha Hb H1 Ht. eapply Rle_trans; [right; symmetry; apply (@far_prob _ q0 t last_answer)|].
    eapply Rle_trans; [right; exact (@sym_expect D l0 h0 ops v (fun x => far q0 t x) (proj1 Hf) SL_ SH_ FL_ FH_)|].
    apply (@pick_high_exp _ _ _ _ _ _ q0 q1 TL TH (bL rs v) (bH (map Ropp rs) (- v)) XL (XH CH') t _ H1 Hb).
    eapply Rle_trans; [right; apply (@far_prob _ q0 t (fun r => 1 - last_answer r))|].
    apply (@chernoff _ PH (fun r => 1 - last_answer r - q0) (aH (map Ropp rs) (- v)) t Ha Ht TH (XH CH)).
    intros r. destruct (Rle_dec t (Rabs (1 - last_answer r - q0))); [auto|discriminate].
  Qed.
End Sym.

Theorem sym_relative_exp (D : digest xr) s0 lim u b c ops rs v t :
  unbiased D s0 lim u -> concentrated D s0 lim (fun _ _ => b) -> concentrated D s0 lim (fun rs v => c * (upto v rs / size rs) ^ 2) -> 0 < b -> 0 < c ->
  fine ops -> items_of ops = map XFin rs -> rs <> [] -> (Z.of_nat (length rs) <= lim)%Z -> 0 < t ->
  let q0 := below v rs / size rs in
  let q1 := upto v rs / size rs in
  let run := exec (sym_digest D) (Sym D s0 s0) (ops ++ [Quant (XFin v)]) in
  (0 < q1 -> q0 + q1 < 1 ->
    prob (fun r => if Rle_dec (t * q1) (Rabs (last_answer r - q1)) then true else false) run <= 2 * exp (- (t ^ 2 / (2 * c))) + exp (- ((1 - q0 - q1) ^ 2 / (4 * b)))) /\
  (q0 < 1 -> 1 < q0 + q1 ->
    prob (fun r => if Rle_dec (t * (1 - q0)) (Rabs (last_answer r - q0)) then true else false) run <= 2 * exp (- (t ^ 2 / (2 * c))) + exp (- ((q0 + q1 - 1) ^ 2 / (4 * b)))).
Proof.
  intros U CB CC Hb Hc Hf Hi Hne Hl Ht q0 q1 run. assert (0 < b + b) as Hbb by lra.
  assert (1 - upto (- v) (map Ropp rs) / size (map Ropp rs) = q0) as Eh.
  { assert (0 < size rs) by (apply lt_0_INR; destruct rs; [congruence|cbn; lia]). destruct (below_upto_mirror (- v) rs) as [_ ->]. rewrite map_length, Ropp_involutive. unfold q0. field. lra. }
  split.
  - intros H1 H2. assert (0 < t * q1) as Htq by now apply Rmult_lt_0_compat. assert (0 < c * q1 ^ 2) as Hcq by (apply Rmult_lt_0_compat; [exact Hc|now apply pow_lt]).
    eapply Rle_trans; [exact (@sym_low_exp D s0 s0 lim u u _ _ _ U U CC CB CB ops rs v Hf Hi Hne Hl (t * q1) Hcq Hbb H2 Htq)|].
    cbv beta. fold q0 q1. right. f_equal; [f_equal|]; f_equal; f_equal; field; repeat split; lra.
  - intros H1 H2. assert (0 < 1 - q0) as Hp by lra. assert (0 < t * (1 - q0)) as Htq by now apply Rmult_lt_0_compat.
    assert (upto (- v) (map Ropp rs) / size (map Ropp rs) = 1 - q0) as Eh' by lra.
    assert (0 < c * (upto (- v) (map Ropp rs) / size (map Ropp rs)) ^ 2) as Hcq by (rewrite Eh'; apply Rmult_lt_0_compat; [exact Hc|now apply pow_lt]).
    eapply Rle_trans; [exact (@sym_high_exp D s0 s0 lim u u _ _ _ U U CB CC CB ops rs v Hf Hi Hne Hl (t * (1 - q0)) Hcq Hbb H2 Htq)|].
    cbv beta. fold q0 q1. rewrite Eh'. right. f_equal; [f_equal|]; f_equal; f_equal; field; repeat split; lra.
Qed.

(* ------------------------------------------------------------------ *)
(** * ParallelDigest *)
Theorem parallel_tail (D : digest xr) lim a c (ds0 : list (dst D)) b sched ops rs v t : (lim < 2 ^ 53)%Z -> ds0 <> [] -> (Z.of_nat (length ds0) < 2 ^ 53)%Z ->
  Forall (fun d => unbiased D d lim a /\ counted D d lim) ds0 -> Forall (fun d => concentrated D d lim c) ds0 -> (forall l, c l v <= b) -> 0 < b -> 0 < t ->
  filled (length ds0) ops -> fine ops -> Forall (fun o => forall q, o <> Val q) ops -> items_of ops = map XFin rs -> (Z.of_nat (length rs) <= lim)%Z ->
  let wrong := prob (fun r => if Rle_dec t (Rabs (last_answer r - upto v rs / size rs)) then true else false) (exec (parallel_digest D) (parallel_new D sched ds0) (ops ++ [Quant (XFin v)])) in
  wrong <= 2 * exp (- (t ^ 2 / (2 * b))) /\
  (Forall (fun o => (exists v, o = Quant v) \/ exists l j, o = AddBuf l /\ length l = (j * length ds0)%nat) ops -> wrong <= 2 * exp (- (INR (length ds0) * t ^ 2 / (2 * b)))).
Proof.
  intros Hlim Hds Hlen Hub HC Hc Hb Ht Hfl Hf Hq Hi Hl wrong.
  destruct (@parallel_unbiased D lim a ds0 Hlim Hds Hlen Hub sched ops rs v Hfl Hf Hq Hi Hl) as (_ & _ & _ & _ & _ & HT & _).
  destruct (@parallel_exp D lim a ds0 Hlim Hds Hlen Hub c sched ops rs v HC Hfl Hf Hq Hi Hl) as (parts & P1 & P2 & P3 & P4 & P5).
  assert (rs <> []) as Hne.
  { intros ->. apply Permutation_nil in P2. destruct parts as [|l parts]; [destruct ds0; [congruence|discriminate]|]. inversion P3; subst. cbn in P2. now destruct l. }
  assert (forall V, 0 < V -> sumR (map (fun l => (size l / size rs) ^ 2 * c l v) parts) <= V -> wrong <= 2 * exp (- (t ^ 2 / (2 * V)))) as HW.
  { intros V HV HS. apply (@chernoff _ (exec (parallel_digest D) (parallel_new D sched ds0) (ops ++ [Quant (XFin v)])) (fun r => last_answer r - upto v rs / size rs) V t HV Ht).
    - eapply always_mono; [exact HT|auto].
    - intros l. eapply Rle_trans; [exact (P5 l)|]. apply exp_mono, Rmult_le_compat_l; [pose proof (pow2_ge_0 l); lra|exact HS].
    - intros r. destruct (Rle_dec t (Rabs (last_answer r - upto v rs / size rs))); [auto|discriminate]. }
  split.
  - apply HW; [exact Hb|]. apply shares_le; [exact P2|exact Hne|exact Hc|lra].
  - intros HE. destruct (P4 HE) as [n Hn].
    assert (0 < INR (length ds0)) as Hm by (apply lt_0_INR; destruct ds0; [congruence|cbn; lia]).
    assert (sumR (map (fun l => (size l / size rs) ^ 2 * c l v) parts) <= b / INR (length ds0)) as HS.
    { rewrite <- P1. apply (@shares_even parts rs c v b n); assumption. }
    assert (0 < b / INR (length ds0)) as HV by now apply Rdiv_lt_0_compat.
    eapply Rle_trans; [exact (HW _ HV HS)|]. right. f_equal. f_equal. f_equal. field. lra.
Qed.
