(** LinearDigest and TDigest inside the wrappers: instances of Accurate.v and AccuratePar.v. *)
From Coq Require Import List Arith ZArith Lia Bool Permutation Reals Lra.
From Flocq Require Import Core.
From Verif Require Import Base Floats XReal Digest Spec FloatFacts History LinearProofs WrapProofs MultiSymProofs ParallelProofs.
From Verif Require Import TDigest TDigestExact TDigestHist TDigestTop ScaleFunctions ScaleProofs TDigestScale TDigestAcc TDigestAcc2 TDigestCap TDigestDrift Accurate AccuratePar.
Set Implicit Arguments.
Set Universe Polymorphism.
Unset Universe Minimization ToSet.
Local Open Scope R_scope.

(** the answer to a query at the end of a history *)
Section Ask.
  Variables (D : digest xr) (s0 : dst D) (ops : list (op xr)) (P : R -> Prop).
  Lemma ask_snoc o : whenever (fun r => whenever (fun r' => exists x, snd r' = [XFin x] /\ P x) (step D (fst r) o)) (exec D s0 ops) ->
    whenever (fun r => exists al x, snd r = al ++ [XFin x] /\ P x) (exec D s0 (ops ++ [o])).
  Proof.
    intros H. rewrite exec_app. eapply whenever_bind; [exact H|]. intros [s al] H1. cbn [fst snd] in *. cbn [exec].
    eapply whenever_bind; [eapply whenever_bind; [exact H1|]|].
    - intros [s' b] (x & E & Hx). cbn [snd] in E. subst b. cbn. instantiate (1 := fun r => exists x, snd r = [XFin x] /\ P x). cbn. eauto.
    - intros [s' b] (x & E & Hx). cbn [snd] in E. subst b. cbn. eauto.
  Qed.
  Lemma ask_quant v : whenever (fun r => whenever (fun r' => exists x, snd r' = XFin x /\ P x) (d_est_q D (fst r) (XFin v))) (exec D s0 ops) ->
    whenever (fun r => exists al x, snd r = al ++ [XFin x] /\ P x) (exec D s0 (ops ++ [Quant (XFin v)])).
  Proof.
    intros H. apply ask_snoc. eapply whenever_mono; [exact H|]. intros r H1. cbn [step]. eapply whenever_bind; [exact H1|].
    intros [s' a] (x & E & Hx). cbn [snd] in E. subst a. cbn. eauto.
  Qed.
  Lemma ask_val q : whenever (fun r => whenever (fun r' => exists x, snd r' = XFin x /\ P x) (d_est_v D (fst r) (XFin q))) (exec D s0 ops) ->
    whenever (fun r => exists al x, snd r = al ++ [XFin x] /\ P x) (exec D s0 (ops ++ [Val (XFin q)])).
  Proof.
    intros H. apply ask_snoc. eapply whenever_mono; [exact H|]. intros r H1. cbn [step]. eapply whenever_bind; [exact H1|].
    intros [s' a] (x & E & Hx). cbn [snd] in E. subst a. cbn. eauto.
  Qed.
End Ask.

(* ------------------------------------------------------------------ *)
(** * LinearDigest *)

Lemma xflt x v : flt (XFin x) (XFin v) = if Rlt_dec x v then true else false.
Proof.
  pose proof (@flt_iff xr xr_ops (xr_laws (Z.le_refl 4096)) (XFin x) (XFin v)) as H. rewrite xlt_iff in H. cbn in H.
  destruct (Rlt_dec x v) as [L|L]; [tauto|]. apply not_true_iff_false. tauto.
Qed.
Lemma xfle x v : fle (XFin x) (XFin v) = if Rle_dec x v then true else false.
Proof.
  pose proof (@fle_iff xr xr_ops (xr_laws (Z.le_refl 4096)) (XFin x) (XFin v)) as H. rewrite xle_iff in H. cbn in H.
  destruct (Rle_dec x v) as [L|L]; [tauto|]. apply not_true_iff_false. tauto.
Qed.
Lemma lin_below rs v : INR (n_lt (map XFin rs) (XFin v)) = below v rs.
Proof.
  unfold n_lt, below. f_equal. induction rs as [|x rs IH]; [reflexivity|]. cbn [map filter]. rewrite xflt. destruct (Rlt_dec x v); cbn [length]; congruence.
Qed.
Lemma lin_upto rs v : INR (n_le (map XFin rs) (XFin v)) = upto v rs.
Proof.
  unfold n_le, upto. f_equal. induction rs as [|x rs IH]; [reflexivity|]. cbn [map filter]. rewrite xfle. destruct (Rle_dec x v); cbn [length]; congruence.
Qed.
Lemma lt_eq_le rs v : (n_lt (map XFin rs) (XFin v) + n_eq (map XFin rs) (XFin v) = n_le (map XFin rs) (XFin v))%nat.
Proof.
  unfold n_lt, n_eq, n_le. induction rs as [|x rs IH]; [reflexivity|]. cbn [map filter]. rewrite xflt, xfle.
  pose proof (@feq_iff xr xr_ops (xr_laws (Z.le_refl 4096)) (XFin x) (XFin v)) as H. cbn [fval xr_laws] in H.
  destruct (feq (XFin x) (XFin v)) eqn:E.
  - destruct (proj1 H eq_refl) as [H' _]. injection H' as ->. destruct (Rlt_dec v v); [lra|]. destruct (Rle_dec v v); [|lra]. cbn [length]. lia.
  - assert (x <> v). { intros ->. assert (false = true); [|discriminate]. apply H. split; [reflexivity|discriminate]. }
    destruct (Rlt_dec x v), (Rle_dec x v); cbn [length]; try lra; lia.
Qed.

Lemma lin_fine B (HB : (4096 <= B)%Z) ops : forall its, Forall fine_op ops -> Forall (fun p => fst p <> []) (queries_of its ops) -> ok_hist (@lin_ok xr xr_ops (xr_laws HB)) its ops.
Proof.
  induction ops as [|o ops IH]; intros its H1 H2; [exact I|]. inversion H1 as [|? ? Ho H1']; subst. cbn [ok_hist].
  assert (forall x, xfinite x -> fisnan x = false) as HN by (intros x [r ->]; reflexivity).
  destruct o as [x|l|v|q]; cbn [fine_op lin_ok items_of queries_of] in *; rewrite ?app_nil_r.
  - split; [now apply HN|]. now apply IH.
  - split; [|now apply IH]. unfold no_nan. eapply Forall_impl; [|exact Ho]. auto.
  - inversion H2; subst. split; [exact I|]. now apply IH.
  - inversion H2; subst. split; [|now apply IH]. split; [assumption|]. destruct Ho as (r & -> & Hr). exists r. now split.
Qed.

Theorem linear_rank lim : (lim < 2 ^ 64)%Z -> rank_accurate (linear_digest xr) linear_new lim (fun _ _ _ => 0).
Proof.
  intros HL. split.
  - intros ops [H1 H2] Hl. assert (4096 <= Z.max 4096 (Z.of_nat (length (items_of ops))))%Z as HB by lia.
    eapply always_mono; [apply (@linear_never_panics xr xr_ops (xr_laws HB) ops)|auto]; [now apply lin_fine|cbn [fint xr_laws]; lia|lia].
  - intros ops rs v Hf Hits Hne Hl. apply ask_quant. eapply whenever_mono.
    { apply linear_hist_est_q_xr. rewrite Hits. destruct rs; [congruence|discriminate]. }
    intros [s al] E. cbn [fst snd] in *. cbn [linear_digest d_est_q]. cbn. exists (mid_rank (items_of ops) (XFin v) / INR (length (items_of ops))).
    split; [exact E|]. rewrite Hits, map_length. assert (0 < size rs) by (destruct rs; [congruence|apply lt_0_INR; cbn; lia]).
    replace (size rs * (mid_rank (map XFin rs) (XFin v) / size rs)) with (mid_rank (map XFin rs) (XFin v)) by (field; lra).
    unfold within, mid_rank. rewrite lin_below. pose proof (lt_eq_le rs v) as HS. apply (f_equal INR) in HS. rewrite plus_INR, lin_below, lin_upto in HS.
    pose proof (pos_INR (n_eq (map XFin rs) (XFin v))). destruct (2 <=? _)%nat; lra.
Qed.

Theorem linear_value lim : (lim < 2 ^ 64)%Z -> value_accurate (linear_digest xr) linear_new lim (fun _ _ _ => / 2).
Proof.
  intros HL ops rs q Hf Hits Hne Hl Hq. apply ask_val.
  assert (items_of ops <> []) as Hi by (rewrite Hits; destruct rs; [congruence|discriminate]).
  assert (4096 <= Z.max 4096 (Z.of_nat (length (items_of ops))))%Z as HB by lia.
  assert (length (items_of ops) = length rs) as El by (now rewrite Hits, map_length).
  assert (no_nan (items_of ops)) as Hnn. { rewrite Hits. apply Forall_forall. intros x Hx. apply in_map_iff in Hx as (r & <- & _). reflexivity. }
  destruct (@linear_hist_est_v xr xr_ops (xr_laws HB) ops (XFin q) q) as (p & Hp & Hp' & H); auto; [cbn [fint xr_laws]; lia|lia|].
  cbn in Hp. injection Hp as Ep. eapply whenever_mono; [exact H|]. intros [s al] HA. cbn [fst snd] in *. apply always_whenever.
  eapply always_mono; [exact HA|]. intros r (Hin & O1 & O2). rewrite Hits in Hin. apply in_map_iff in Hin as (x & Ex & _). exists x. split; [now rewrite Ex|].
    rewrite Hits, <- Ex in O1, O2. apply le_INR in O1. apply lt_INR in O2 as O3. assert (S (val_index (length (map XFin rs)) p) <= n_le (map XFin rs) (XFin x))%nat as O4 by lia.
    apply le_INR in O4. rewrite S_INR in O4. rewrite lin_below in O1. rewrite lin_upto in O4. rewrite map_length in O1, O4. rewrite El in Ep, Hp'. subst p.
    unfold within. unfold val_index in *.
    assert (Rabs (IZR (ZnearestA (q * size rs)) - q * size rs) <= / 2) as HZ.
    { rewrite <- Rabs_Ropp, Ropp_minus_distr. exact (Znearest_half _ (q * size rs)). }
    apply Rabs_le_inv in HZ. assert (0 <= ZnearestA (q * size rs))%Z as HZ0.
    { apply le_IZR. assert (-1 < IZR (ZnearestA (q * size rs))) as HZ1 by lra. apply lt_IZR in HZ1. apply IZR_le. lia. }
    assert (INR (Z.to_nat (ZnearestA (q * size rs))) = IZR (ZnearestA (q * size rs))) as EZ by (rewrite INR_IZR_INZ, Z2Nat.id by lia; reflexivity).
    assert (1 <= length rs)%nat as H1 by (destruct rs; [congruence|cbn; lia]).
    assert (INR (length rs - 1) = size rs - 1) as E1 by (rewrite minus_INR by lia; reflexivity).
    destruct (Nat.min_dec (Z.to_nat (ZnearestA (q * size rs))) (length rs - 1)) as [Em|Em]; rewrite Em in O1, O4.
    - rewrite EZ in O1, O4. lra.
    - rewrite E1 in O1, O4. assert (INR (length rs - 1) <= INR (Z.to_nat (ZnearestA (q * size rs)))) as HM by (apply le_INR; lia). rewrite EZ, E1 in HM. nra.
Qed.
Theorem linear_counted lim : counted (linear_digest xr) linear_new lim.
Proof. intros ops _ _. eapply whenever_mono; [apply linear_count_ok|]. now intros r [_ H]. Qed.

(* ------------------------------------------------------------------ *)
(** * TDigest *)

(** [cfg] uses a scale function whose steps span at most the fraction [lam n] of [n] items *)
Definition scaled (cfg : tcfg xr) (lam : R -> R) : Prop :=
  exists k inv cf, with_scale cfg k inv cf /\ (forall n n', 1 <= n -> n <= n' -> lam n <= lam n') /\ (forall n, 1 <= n -> 0 <= lam n) /\
    forall n, 1 <= n -> step_width k inv cf n (lam n).

(** the rank error of a TDigest after [c] insertion calls and [n] items *)
Definition t_error (lam : R -> R) (c n : nat) : R :=
  INR c * (Rmax 1 (lam (INR n) * INR n) - 1) + Rmax 1 (Rmax 1 (lam (INR n) * INR n) / 2).

Section T.
  Variables (cfg : tcfg xr) (lam : R -> R).
  Hypothesis HS : scaled cfg lam.

  Lemma fine_xok ops : fine ops -> Forall xok ops.
  Proof.
    intros [H _]. eapply Forall_impl; [|exact H]. intros [x|l|v|q] Ho; cbn in *; auto. destruct Ho as [r ->]. discriminate.
  Qed.
  Lemma scaled_lib : lib_ok cfg.
  Proof. destruct HS as (k & inv & cf & (H & _) & _). exact H. Qed.

  Theorem t_rank lim : (lim < 2 ^ 64)%Z -> rank_accurate (t_digest cfg) td_new lim (fun c _ n => t_error lam c n).
  Proof.
    intros HL. split.
    - intros ops Hf Hl. destruct (fine_items Hf) as [rs E]. rewrite E, map_length in Hl.
      eapply always_mono; [apply (td_exec_returns scaled_lib rs (fine_xok Hf) E); lia|auto].
    - intros ops rs v Hf Hits Hne Hl. apply ask_quant. destruct HS as (k & inv & cf & Hs & Hm & Hp & Hst).
      eapply whenever_mono; [exact (@td_drift_mono cfg k inv cf lam Hs Hm Hp Hst ops rs Hits Hne)|].
      intros [s al] [Hq _]. cbn [fst] in *. destruct (Hq v) as (a & Ea & Ha). cbn [t_digest d_est_q]. rewrite Ea. cbn. eauto.
  Qed.
  Theorem t_counted lim : (lim < 2 ^ 64)%Z -> counted (t_digest cfg) td_new lim.
  Proof.
    intros HL ops Hf Hl. destruct (fine_items Hf) as [rs E]. rewrite E, map_length in *. refine (@td_exact_count cfg scaled_lib ops rs E _); lia.
  Qed.

  Lemma t_error_grows : grows (fun c _ n => t_error lam c n).
  Proof.
    intros c c' q q' n Hc _. unfold t_error. apply le_INR in Hc. pose proof (Rmax_l 1 (lam (INR n) * INR n)). nra.
  Qed.
  Lemma t_error_pos c n : 0 <= t_error lam c n.
  Proof.
    unfold t_error. pose proof (pos_INR c). pose proof (Rmax_l 1 (lam (INR n) * INR n)). pose proof (Rmax_l 1 (Rmax 1 (lam (INR n) * INR n) / 2)). nra.
  Qed.
  (** over several digests: at most one item each, plus the error for all items together *)
  Definition t_errors (m c n : nat) : R := INR m + (INR c + / 2) * (lam (INR n) * INR n).
  Lemma t_error_le c n W : 0 <= lam (INR n) * INR n <= W -> t_error lam c n <= 1 + (INR c + / 2) * W.
  Proof.
    intros [H1 H2]. unfold t_error. pose proof (pos_INR c).
    assert (Rmax 1 (lam (INR n) * INR n) - 1 <= W) by (apply Rle_trans with (lam (INR n) * INR n); [|exact H2]; unfold Rmax; destruct (Rle_dec _ _); lra).
    assert (Rmax 1 (Rmax 1 (lam (INR n) * INR n) / 2) <= 1 + / 2 * W).
    { apply Rmax_lub; [lra|]. assert (Rmax 1 (lam (INR n) * INR n) <= 1 + W) by lra. lra. }
    nra.
  Qed.
  Lemma sum_nat_in n ns : In n ns -> (n <= sum_nat ns)%nat.
  Proof. induction ns as [|m ns IH]; intros H; [destruct H|]. cbn. destruct H as [->|H]; [lia|]. specialize (IH H). unfold sum_nat in *. lia. Qed.
  Lemma t_errors_sum c ns : Forall (fun n => (1 <= n)%nat) ns -> sumR (map (t_error lam c) ns) <= t_errors (length ns) c (sum_nat ns).
  Proof.
    intros H. unfold t_errors. destruct HS as (k & inv & cf & _ & Hm & Hp & _).
    set (L := lam (INR (sum_nat ns))).
    assert (forall ns', Forall (fun n => (1 <= n)%nat) ns' -> (forall n, In n ns' -> (n <= sum_nat ns)%nat) ->
      sumR (map (t_error lam c) ns') <= INR (length ns') + (INR c + / 2) * (L * INR (sum_nat ns'))) as HG.
    { induction ns' as [|n ns' IH]; intros HF HI.
      - cbn. lra.
      - inversion HF as [|? ? H1 HF']; subst. assert (1 <= INR n) as H1' by (apply (le_INR 1); exact H1).
        assert (INR n <= INR (sum_nat ns)) as H2 by (apply le_INR, HI; now left).
        assert (t_error lam c n <= 1 + (INR c + / 2) * (L * INR n)) as H3.
        { apply t_error_le. pose proof (Hp _ H1'). pose proof (Hm _ _ H1' H2) as Hmm. fold L in Hmm. split; nra. }
        assert (sumR (map (t_error lam c) ns') <= INR (length ns') + (INR c + / 2) * (L * INR (sum_nat ns'))) as H4 by (apply IH; [exact HF'|intros m Hm'; apply HI; now right]).
        change (sum_nat (n :: ns')) with (n + sum_nat ns')%nat. rewrite plus_INR. cbn [map sumR fold_right length]. rewrite S_INR.
        unfold sumR in *. cbn [fold_right]. nra. }
    apply HG; [exact H|]. intros n Hn. now apply sum_nat_in.
  Qed.
End T.

Section Composites.
  Variables (cfg : tcfg xr) (lam : R -> R) (lim : Z).
  Hypotheses (HS : scaled cfg lam) (HL : (lim < 2 ^ 64)%Z).

  (** buffering a TDigest saves insertions, and with them errors: of [n] items and [q] queries it makes at most
      [n / (c + 1) + q + 1] insertions *)
  Theorem buffered_t_rank c : (1 <= c)%nat ->
    rank_accurate (buffered_digest (t_digest cfg)) (buffered_new (t_digest cfg) td_new c) lim
      (fun _ q n => t_error lam (n / (c + 1) + q + 1) n).
  Proof.
    intros Hc. exact (@buffered_rank (t_digest cfg) td_new c lim _ Hc (t_rank HS HL) (@t_error_grows lam)).
  Qed.
  Theorem sym_t_rank : rank_accurate (sym_digest (t_digest cfg)) (Sym (t_digest cfg) td_new td_new) lim (fun c _ n => t_error lam c n).
  Proof. exact (sym_rank (t_rank HS HL) (t_rank HS HL)). Qed.

  Section Par.
    Variables (m : nat).
    Hypotheses (Hm : (1 <= m)%nat) (Hm2 : (Z.of_nat m < 2 ^ 53)%Z) (HL2 : (lim < 2 ^ 53)%Z).
    Let ds := repeat (@td_new xr xr_ops) m.
    Lemma par_t_members : ds <> [] /\ length ds = m /\ Forall (fun d => rank_accurate (t_digest cfg) d lim (fun c _ n => t_error lam c n) /\ counted (t_digest cfg) d lim) ds.
    Proof.
      unfold ds. split; [destruct m; [lia|discriminate]|]. split; [apply repeat_length|]. apply Forall_forall. intros d Hd. apply repeat_spec in Hd. subst d.
      split; [exact (t_rank HS HL)|exact (t_counted HS HL)].
    Qed.
    Theorem parallel_t_rank sched ops rs v : filled m ops -> fine ops -> items_of ops = map XFin rs -> (Z.of_nat (length rs) <= lim)%Z ->
      always (fun r => exists al a, snd r = al ++ [XFin a] /\ within rs (t_errors lam m (calls ops) (length rs)) (size rs * a) v)
        (exec (parallel_digest (t_digest cfg)) (parallel_new (t_digest cfg) sched ds) (ops ++ [Quant (XFin v)])).
    Proof.
      intros H1 H2 H3 H4. destruct par_t_members as (A & B & C).
      refine (@parallel_rank (t_digest cfg) lim (t_error lam) (t_errors lam m) ds HL2 A _ C _ (t_error_pos lam) _ sched ops rs v _ H2 H3 H4).
      - exact (eq_ind_r (fun k => (Z.of_nat k < 2 ^ 53)%Z) Hm2 B).
      - intros c c' n Hc. exact (@t_error_grows lam c c' 0%nat 0%nat n Hc (le_n _)).
      - intros c ns En HF. rewrite <- (eq_trans En B). exact (t_errors_sum HS c HF).
      - exact (eq_ind_r (fun k => filled k ops) H1 B).
    Qed.
    Theorem parallel_t_value sched ops rs q : filled m ops -> fine ops -> items_of ops = map XFin rs -> (Z.of_nat (length rs) <= lim)%Z -> 0 <= q <= 1 ->
      always (fun r => exists al x, snd r = al ++ [XFin x] /\ bracketed rs (t_errors lam m (calls ops) (length rs)) q x)
        (exec (parallel_digest (t_digest cfg)) (parallel_new (t_digest cfg) sched ds) (ops ++ [Val (XFin q)])).
    Proof.
      intros H1 H2 H3 H4 H5. destruct par_t_members as (A & B & C).
      refine (@parallel_value (t_digest cfg) lim (t_error lam) (t_errors lam m) ds HL2 A _ C _ (t_error_pos lam) _ sched ops rs q _ H2 H3 H4 H5).
      - exact (eq_ind_r (fun k => (Z.of_nat k < 2 ^ 53)%Z) Hm2 B).
      - intros c c' n Hc. exact (@t_error_grows lam c c' 0%nat 0%nat n Hc (le_n _)).
      - intros c ns En HF. rewrite <- (eq_trans En B). exact (t_errors_sum HS c HF).
      - exact (eq_ind_r (fun k => filled k ops) H1 B).
    Qed.
  End Par.
End Composites.

(** MultiDigest over TDigests, each with its own configuration *)
Inductive fresh_t : boxed xr -> (R -> R) -> Prop := Fresh_t cfg lam : scaled cfg lam -> fresh_t (@Box xr (t_digest cfg) td_new) lam.
Theorem multi_t_rank (ds : list (boxed xr)) lams lim : ds <> [] -> Forall2 fresh_t ds lams -> (lim < 2 ^ 64)%Z ->
  rank_accurate (multi_digest xr) ds lim (mean_error (map (fun lam c _ n => t_error lam c n) lams)).
Proof.
  intros Hne HF HL. apply multi_rank; [exact Hne|]. clear Hne.
  induction HF as [|b lam ds lams H HF IH]; cbn [map]; [constructor|]. constructor; [|exact IH]. destruct H as [cfg lam H]. exact (t_rank H HL).
Qed.

(** the library's scale functions *)
Section Scales.
  Variables (cfg : tcfg xr) (cf : R).
  Hypothesis Hc : 0 < cf.
  Let ln4 : forall a, 0 < a -> 0 < ln 10 / a.
  Proof. intros a Ha. pose proof ln10_pos. apply Rdiv_lt_0_compat; lra. Qed.
  Theorem scaled_k0 : with_scale cfg k0 inv_k0 cf -> scaled cfg (fun _ => 2 / cf).
  Proof.
    intros H. exists k0, inv_k0, cf. split; [exact H|]. split; [intros; lra|]. split; [intros; apply Rlt_le, Rdiv_lt_0_compat; lra|]. intros. now apply k0_width.
  Qed.
  Theorem scaled_k1 : with_scale cfg k1 inv_k1 cf -> scaled cfg (fun _ => PI / cf).
  Proof.
    intros H. exists k1, inv_k1, cf. split; [exact H|]. split; [intros; lra|]. split; [intros; apply Rlt_le, Rdiv_lt_0_compat; [apply PI_RGT_0|lra]|]. intros. now apply k1_width.
  Qed.
  Theorem scaled_k2 : with_scale cfg k2 inv_k2 cf -> 0 < den 24 cf 1 -> scaled cfg (fun n => ln 10 / 4 * (den 24 cf n / cf)).
  Proof.
    intros H Hd. exists k2, inv_k2, cf. split; [exact H|]. split; [|split].
    - intros n n' H1 H2. apply (@den_frac 24 cf cf n n' Hc Hc H1 H2 Hd). apply ln4. lra.
    - intros n H1. apply (@den_frac 24 cf cf n n Hc Hc H1 (Rle_refl n) Hd). apply ln4. lra.
    - intros n H1. apply k2_width; [exact Hc|lra|]. pose proof (@den_mono 24 cf 1 n Hc (Rle_refl 1) H1). lra.
  Qed.
  Theorem scaled_k3 : with_scale cfg k3 inv_k3 cf -> 0 < den 21 cf 1 -> scaled cfg (fun n => ln 10 / 2 * (den 21 cf n / cf)).
  Proof.
    intros H Hd. exists k3, inv_k3, cf. split; [exact H|]. split; [|split].
    - intros n n' H1 H2. apply (@den_frac 21 cf cf n n' Hc Hc H1 H2 Hd). apply ln4. lra.
    - intros n H1. apply (@den_frac 21 cf cf n n Hc Hc H1 (Rle_refl n) Hd). apply ln4. lra.
    - intros n H1. apply k3_width; [exact Hc|lra|]. pose proof (@den_mono 21 cf 1 n Hc (Rle_refl 1) H1). lra.
  Qed.
  Theorem scaled_k2_asym : with_scale cfg k2_asym inv_k2_asym cf -> 0 < den 24 (cf * 2) 1 -> scaled cfg (fun n => ln 10 / 4 * (den 24 (cf * 2) n / cf)).
  Proof.
    intros H Hd. assert (0 < cf * 2) as Hc2 by lra. exists k2_asym, inv_k2_asym, cf. split; [exact H|]. split; [|split].
    - intros n n' H1 H2. apply (@den_frac 24 (cf * 2) cf n n' Hc2 Hc H1 H2 Hd). apply ln4. lra.
    - intros n H1. apply (@den_frac 24 (cf * 2) cf n n Hc2 Hc H1 (Rle_refl n) Hd). apply ln4. lra.
    - intros n H1. apply k2_asym_width; [lra|exact Hc|]. pose proof (@den_mono 24 (cf * 2) 1 n Hc2 (Rle_refl 1) H1). lra.
  Qed.
End Scales.

Lemma rank_wider D s0 lim e e' : (forall c q n, e c q n <= e' c q n) -> rank_accurate D s0 lim e -> rank_accurate D s0 lim e'.
Proof.
  intros H [H1 H2]. split; [exact H1|]. intros ops rs v A B C E. eapply whenever_mono; [exact (H2 ops rs v A B C E)|].
  intros r (al & a & E1 & Hw). exists al, a. split; [exact E1|]. exact (within_wider (H _ _ _) Hw).
Qed.
(** wrappers of LinearDigest answer quantile queries without rank error, however they are nested *)
Section LinearWraps.
  Variable lim : Z.
  Hypothesis HL : (lim < 2 ^ 64)%Z.
  Notation LD := (linear_digest xr).
  Theorem buffered_linear c : (1 <= c)%nat -> rank_accurate (buffered_digest LD) (buffered_new LD linear_new c) lim (fun _ _ _ => 0) /\
    value_accurate (buffered_digest LD) (buffered_new LD linear_new c) lim (fun _ _ _ => / 2).
  Proof.
    intros Hc. assert (grows (fun _ _ _ => 0)) as G0 by (intros ? ? ? ? ? _ _; lra). assert (grows (fun _ _ _ => / 2)) as G1 by (intros ? ? ? ? ? _ _; lra).
    split; [exact (@buffered_rank LD linear_new c lim _ Hc (linear_rank HL) G0)|].
    exact (@buffered_value LD linear_new c lim (fun _ _ _ => / 2) Hc G1 (linear_value HL)).
  Qed.
  Theorem sym_linear : rank_accurate (sym_digest LD) (Sym LD linear_new linear_new) lim (fun _ _ _ => 0) /\
    value_accurate (sym_digest LD) (Sym LD linear_new linear_new) lim (fun _ _ _ => / 2).
  Proof.
    split; [exact (sym_rank (linear_rank HL) (linear_rank HL))|]. exact (sym_value (linear_value HL) (linear_value HL)).
  Qed.
  Theorem parallel_linear m : (1 <= m)%nat -> (Z.of_nat m < 2 ^ 53)%Z -> (lim < 2 ^ 53)%Z ->
    forall sched ops rs, filled m ops -> fine ops -> items_of ops = map XFin rs -> (Z.of_nat (length rs) <= lim)%Z ->
    (forall v, always (fun r => exists al a, snd r = al ++ [XFin a] /\ within rs 0 (size rs * a) v)
        (exec (parallel_digest LD) (parallel_new LD sched (repeat linear_new m)) (ops ++ [Quant (XFin v)]))) /\
    forall q, 0 <= q <= 1 -> always (fun r => exists al x, snd r = al ++ [XFin x] /\ bracketed rs 0 q x)
        (exec (parallel_digest LD) (parallel_new LD sched (repeat linear_new m)) (ops ++ [Val (XFin q)])).
  Proof.
    intros H1 H2 H3 sched ops rs F1 F2 F3 F4. pose (ds := repeat (linear_new : dst LD) m).
    assert (ds <> []) as A by (unfold ds; destruct m; [lia|discriminate]).
    assert (length ds = m) as B by apply repeat_length.
    assert (Forall (fun d => rank_accurate LD d lim (fun c _ n => (fun _ _ => 0) c n) /\ counted LD d lim) ds) as C.
    { apply Forall_forall. intros d Hd. apply repeat_spec in Hd. subst d. split; [exact (linear_rank HL)|apply linear_counted]. }
    assert (forall c ns, length ns = length ds -> Forall (fun n => (1 <= n)%nat) ns -> sumR (map ((fun _ _ : nat => 0) c) ns) <= (fun _ _ : nat => 0) c (sum_nat ns)) as S.
    { intros c ns _ _. clear. induction ns as [|n ns IH]; [cbn; lra|]. cbn [map]. change (0 + sumR (map (fun _ : nat => 0) ns) <= 0). lra. }
    assert (Z.of_nat (length ds) < 2 ^ 53)%Z as L by (rewrite B; exact H2).
    assert (filled (length ds) ops) as F by (rewrite B; exact F1).
    split; [intros v|intros q Hq].
    - exact (@parallel_rank LD lim (fun _ _ => 0) (fun _ _ => 0) ds H3 A L C (fun _ _ _ _ => Rle_refl 0) (fun _ _ => Rle_refl 0) S sched ops rs v F F2 F3 F4).
    - exact (@parallel_value LD lim (fun _ _ => 0) (fun _ _ => 0) ds H3 A L C (fun _ _ _ _ => Rle_refl 0) (fun _ _ => Rle_refl 0) S sched ops rs q F F2 F3 F4 Hq).
  Qed.
End LinearWraps.
