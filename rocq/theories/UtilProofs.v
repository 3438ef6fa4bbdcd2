(** Proofs about [weighted_average], [opt_accuracy_parameter], centroid addition, [sample_digest_accuracy] and the generators. *)
From Coq Require Import List Arith ZArith Lia Bool Reals Lra Psatz.
From Flocq Require Import Core BinarySingleNaN.
From Verif Require Import Base Floats XReal IEEE Digest Spec FloatFacts TDigest TDigestProofs TDigestExact TDigestCluster Util.
Set Implicit Arguments.
Local Open Scope R_scope.

(* ------------------------------------------------------------------ *)
(** * weighted_average *)
Section Wavg.
  Context {F : Type} {FO : FloatOps F} {FL : FloatLaws F}.

  Lemma fmin_nn (x y : F) : fisnan x = false -> fisnan y = false -> fisnan (fmin x y) = false.
  Proof. intros. now destruct (fmin_cases x y) as [->| ->]. Qed.
  Lemma fmax_nn (x y : F) : fisnan x = false -> fisnan y = false -> fisnan (fmax x y) = false.
  Proof. intros. now destruct (fmax_cases x y) as [->| ->]. Qed.
  Lemma fmin_nan_l (x y : F) : fisnan x = true -> fmin x y = y.
  Proof. intros H. unfold fmin. now rewrite H. Qed.
  Lemma fmin_le_fmax (x y : F) : fisnan x = false -> fisnan y = false -> fle (fmin x y) (fmax x y) = true.
  Proof. intros. eapply fle_trans; [now apply fmin_le_l|now apply fmax_ge_l]. Qed.

  Lemma weighted_average_clamped (x1 w1 x2 w2 : F) : fisnan x1 = false -> fisnan x2 = false ->
    fle (fmin x1 x2) (weighted_average x1 w1 x2 w2) = true /\ fle (weighted_average x1 w1 x2 w2) (fmax x1 x2) = true.
  Proof.
    intros H1 H2. unfold weighted_average. set (w := fdiv _ _). pose proof (fmin_nn _ _ H1 H2) as Hm. pose proof (fmax_nn _ _ H1 H2) as HM.
    split; [now apply fmax_ge_l|].
    destruct (fmax_cases (fmin x1 x2) (fmin w (fmax x1 x2))) as [->| ->]; [now apply fmin_le_fmax|].
    now apply fmin_le_r.
  Qed.
End Wavg.

Section Wavg2.
  Context {F : Type} {FO : FloatOps F} {FL : FloatLaws F}.
  Lemma weighted_average_between (x1 w1 x2 w2 : F) : fisnan x1 = false -> fisnan x2 = false ->
    let r := weighted_average x1 w1 x2 w2 in
    (fle x1 r = true /\ fle r x2 = true) \/ (fle x2 r = true /\ fle r x1 = true).
  Proof.
    intros H1 H2 r. destruct (weighted_average_clamped x1 w1 x2 w2 H1 H2) as [A B]. fold r in A, B.
    destruct (fmin_cases x1 x2) as [E|E]; rewrite E in A; destruct (fmax_cases x1 x2) as [E'|E']; rewrite E' in B; auto.
    - right. split; auto. eapply fle_trans; [|exact A]. rewrite <- E'. now apply fmax_ge_r.
    - left. split; auto. eapply fle_trans; [|exact A]. rewrite <- E'. now apply fmax_ge_l.
  Qed.
End Wavg2.

(* ------------------------------------------------------------------ *)
(** * opt_accuracy_parameter *)

(** Specification: the number of tests passed in an iteration, whether they all completed, and the verdict. *)
Section OptSpec.
  Context {F : Type}.
  Variable trial : nat -> nat -> F -> option bool.
  Variable test_count : nat.
  Variable pass_ratio : f64.

  Definition completed (i : nat) (p : F) : Prop := forall j, (j < test_count)%nat -> trial i j p <> None.
  Definition successes (i : nat) (p : F) : nat :=
    length (filter (fun j => match trial i j p with Some true => true | _ => false end) (seq 0 test_count)).
  Definition verdict (i : nat) (p : F) : bool := fle pass_ratio (fdiv (fof_nat (successes i p) : f64) (fof_nat test_count)).
  Definition passed i p : Prop := completed i p /\ verdict i p = true.
  Definition failed i p : Prop := completed i p /\ verdict i p = false.
End OptSpec.

Section OptProofs.
  Context {F : Type} {FO : FloatOps F}.
  Variable trial : nat -> nat -> F -> option bool.
  Variable test_count : nat.
  Variable pass_ratio : f64.
  Variables max_param epsilon : F.
  Notation passed := (passed trial test_count pass_ratio).
  Notation failed := (failed trial test_count pass_ratio).

  Lemma passes_spec l : whenever (fun n => Forall (fun o => o <> None) l /\
      n = length (filter (fun o : option bool => match o with Some true => true | _ => false end) l)) (passes l).
  Proof.
    induction l as [|[b|] l IH]; cbn [passes]; [cbn; auto| |exact I].
    eapply whenever_bind; [exact IH|]. intros n [H ->]. cbn [whenever]. split; [constructor; auto; discriminate|]. destruct b; reflexivity.
  Qed.
  Lemma filter_map_length {A B} (f : A -> B) p l : length (filter p (map f l)) = length (filter (fun a => p (f a)) l).
  Proof. induction l as [|a l IH]; cbn; auto. destruct (p (f a)); cbn; now rewrite IH. Qed.

  Lemma pass_count_spec i p : whenever (fun n => completed trial test_count i p /\ n = successes trial test_count i p)
      (pass_count trial test_count i p).
  Proof.
    eapply whenever_mono; [apply passes_spec|]. intros n [H ->]. split.
    - intros j Hj. rewrite Forall_forall in H. apply (H (trial i j p)). apply in_map_iff. exists j. split; auto. apply in_seq; lia.
    - unfold successes. apply filter_map_length.
  Qed.
  Lemma passes_always l : Forall (fun o => o <> None) l -> always (fun _ => True) (passes l).
  Proof.
    induction 1 as [|[b|] l H _ IH]; cbn [passes]; [exact I| |congruence].
    eapply always_bind; [exact IH|]. intros; exact I.
  Qed.
  Lemma pass_count_always i p : completed trial test_count i p ->
    always (fun n => n = successes trial test_count i p) (pass_count trial test_count i p).
  Proof.
    intros H. eapply always_mono; [apply always_whenever_and; [apply passes_always|apply pass_count_spec]|].
    - apply Forall_map, Forall_forall. intros j Hj. apply in_seq in Hj. apply H. lia.
    - intros n [_ [_ ->]]. reflexivity.
  Qed.

  (** what is known of a result, given the parameters tested in order *)
  Definition opt_result (ps : list F) (h : F) : Prop :=
    ps <> [] /\
    (forall i p, nth_error ps i = Some p -> passed i p \/ failed i p) /\
    ((exists i, nth_error ps i = Some h /\ passed i h) \/ (h = max_param /\ forall i p, nth_error ps i = Some p -> failed i p)) /\
    (exists l, flt (fsub h l) epsilon = true /\
       ((exists i, nth_error ps i = Some l /\ failed i l) \/ (l = f0 /\ forall i p, nth_error ps i = Some p -> passed i p))).

  Lemma nth_app_l {A} (l l' : list A) i a : nth_error l i = Some a -> nth_error (l ++ l') i = Some a.
  Proof. intros H. rewrite nth_error_app1; auto. apply nth_error_Some. congruence. Qed.
  Lemma nth_snoc {A} (l : list A) a i b : nth_error (l ++ [a]) i = Some b -> nth_error l i = Some b \/ (i = length l /\ b = a).
  Proof.
    intros H. destruct (Nat.lt_ge_cases i (length l)) as [Hi|Hi].
    - rewrite nth_error_app1 in H; auto.
    - rewrite nth_error_app2 in H; auto. destruct (i - length l)%nat as [|n] eqn:E; cbn in H; [injection H as ->; right; split; auto; lia|].
      destruct n; discriminate.
  Qed.
  Lemma nth_last {A} (l : list A) a : nth_error (l ++ [a]) (length l) = Some a.
  Proof. rewrite nth_error_app2, Nat.sub_diag; auto. Qed.

  Definition opt_known (ps : list F) (low high : F) : Prop :=
    (forall i p, nth_error ps i = Some p -> passed i p \/ failed i p) /\
    ((exists i, nth_error ps i = Some high /\ passed i high) \/ (high = max_param /\ forall i p, nth_error ps i = Some p -> failed i p)) /\
    ((exists i, nth_error ps i = Some low /\ failed i low) \/ (low = f0 /\ forall i p, nth_error ps i = Some p -> passed i p)).

  Lemma opt_known_step ps low high cur (b : bool) : opt_known ps low high ->
    (if b then passed (length ps) cur else failed (length ps) cur) ->
    opt_known (ps ++ [cur]) (if b then low else cur) (if b then cur else high).
  Proof.
    intros (K1 & K2 & K3) Hb. split; [|split].
    - intros i p H. apply nth_snoc in H as [H|[-> ->]]; [auto|]. destruct b; auto.
    - destruct b; [left; exists (length ps); split; [apply nth_last|auto]|].
      destruct K2 as [(i & H & P)|[-> H]]; [left; exists i; split; auto; now apply nth_app_l|].
      right. split; auto. intros i p Hp. apply nth_snoc in Hp as [Hp|[-> ->]]; eauto.
    - destruct b; [|left; exists (length ps); split; [apply nth_last|auto]].
      destruct K3 as [(i & H & P)|[-> H]]; [left; exists i; split; auto; now apply nth_app_l|].
      right. split; auto. intros i p Hp. apply nth_snoc in Hp as [Hp|[-> ->]]; eauto.
  Qed.

  Lemma opt_loop_result fuel : forall i low high cur ps, length ps = i -> opt_known ps low high ->
    whenever (fun h => exists ps', opt_result ps' h /\ exists t, ps' = ps ++ cur :: t)
      (opt_loop trial test_count pass_ratio epsilon fuel i low high cur).
  Proof.
    induction fuel as [|fuel IH]; intros i low high cur ps Hl K; cbn [opt_loop]; [exact I|].
    eapply whenever_bind; [apply pass_count_spec|]. intros pc [Hc ->].
    pose proof (@opt_known_step ps low high cur (enough test_count pass_ratio (successes trial test_count i cur)) K) as K'.
    set (b := enough _ _ _) in *. cbv zeta.
    assert (Hb : if b then passed (length ps) cur else failed (length ps) cur).
    { assert (Eb : b = verdict trial test_count pass_ratio i cur) by (unfold b, enough, verdict; apply fge_fle).
      rewrite Hl. destruct b; split; auto. }
    specialize (K' Hb). destruct (flt _ _) eqn:Ef.
    - cbn [whenever]. exists (ps ++ [cur]). split; [|exists []; reflexivity]. destruct K' as (K1 & K2 & K3). split; [now destruct ps|].
      split; [auto|]. split; [auto|]. exists (if b then low else cur). auto.
    - eapply whenever_mono; [apply IH with (ps := ps ++ [cur]); [rewrite app_length; cbn; lia|exact K']|].
      intros h (ps' & R & t & ->). exists ((ps ++ [cur]) ++ middle (if b then low else cur) (if b then cur else high) :: t). split; auto.
      rewrite <- app_assoc. cbn [app]. eexists. reflexivity.
  Qed.

  Lemma opt_result_ok fuel : whenever (fun h => exists ps, opt_result ps h)
    (opt_accuracy_parameter trial test_count pass_ratio max_param epsilon fuel).
  Proof.
    eapply whenever_mono; [apply opt_loop_result with (ps := [])|].
    - reflexivity.
    - split; [intros [|?] ? H; discriminate H|]. split; right; (split; [reflexivity|]); intros [|?] ? H; discriminate H.
    - intros h (ps & H & _). eauto.
  Qed.
End OptProofs.

(** ** Termination: arithmetic accurate to [dl] on [0, 2m] *)
Section OptTerm.
  Context {F : Type} {FO : FloatOps F} {FL : FloatLaws F}.
  Variable trial : nat -> nat -> F -> option bool.
  Variable test_count : nat.
  Variable pass_ratio : f64.
  Variables max_param epsilon : F.
  Variables m e dl : R.
  Hypothesis Hm : fval max_param = XFin m.
  Hypothesis He : fval epsilon = XFin e.
  Hypothesis Hm0 : 0 <= m.
  Hypothesis Hacc : forall r, 0 <= r <= 2 * m -> exists r', frnd r = XFin r' /\ Rabs (r' - r) <= dl.
  Hypothesis Hdm : dl <= 2 * m.
  Hypothesis Htot : forall i p, completed trial test_count i p.

  Lemma dl_nonneg : 0 <= dl.
  Proof. destruct (Hacc (r := 0)) as (r' & _ & H); [lra|]. pose proof (Rabs_pos (r' - 0)). lra. Qed.

  Lemma f2_fin : fval (f2 : F) = XFin 2.
  Proof. unfold f2. rewrite fofZ_val. apply frnd_exact, fint_exact. pose proof fint_ge. lia. Qed.
  Lemma f0_fin : fval (f0 : F) = XFin 0.
  Proof. unfold f0. rewrite fofZ_val. apply frnd_exact, fint_exact. pose proof fint_ge. lia. Qed.

  Lemma frnd_nonneg r r' : frnd r = XFin r' -> 0 <= r -> 0 <= r'.
  Proof.
    intros E H. pose proof (frnd_mono (a := 0) H) as M. rewrite E, (frnd_exact (r := 0)) in M; [now apply xle_iff in M|]. apply (fint_exact 0). pose proof fint_ge. lia.
  Qed.

  Lemma middle_acc low high l h : fval low = XFin l -> fval high = XFin h -> 0 <= l <= m -> 0 <= h <= m ->
    exists c, fval (middle low high) = XFin c /\ Rabs (c - (l + h) / 2) <= 3 / 2 * dl /\ 0 <= c.
  Proof.
    intros El Eh Hl Hh. unfold middle. destruct (Hacc (r := h + l)) as (s & Es & Ds); [lra|].
    assert (Ss : 0 <= s) by (eapply frnd_nonneg; [exact Es|lra]).
    assert (fval (fadd high low) = XFin s) as E1 by (rewrite (fadd_fin Eh El); exact Es).
    pose proof dl_nonneg as Hdl.
    assert (Hs : 0 <= s / 2 <= 2 * m).
    { split; [lra|]. apply Rabs_le_inv in Ds. lra. }
    destruct (Hacc Hs) as (c & Ec & Dc).
    exists c. split; [|split].
    - rewrite (fdiv_fin E1 f2_fin) by lra. exact Ec.
    - apply Rabs_le_inv in Ds, Dc. apply Rabs_le. lra.
    - eapply frnd_nonneg; [exact Ec|lra].
  Qed.

  (** the width of the interval left after a failed check is large, so the next middle stays inside *)
  Lemma check_wide low high l h : fval low = XFin l -> fval high = XFin h -> 0 <= l -> l <= h -> h <= m ->
    flt (fsub high low) epsilon = false -> e <= h - l + dl.
  Proof.
    intros El Eh Hl Hlh Hh C. destruct (Hacc (r := h - l)) as (w & Ew & Dw); [lra|].
    assert (fval (fsub high low) = XFin w) as E1 by (rewrite (fsub_fin Eh El); exact Ew).
    apply Rabs_le_inv in Dw. destruct (Rle_or_lt e w) as [|Hlt]; [lra|].
    assert (flt (fsub high low) epsilon = true) as C' by (apply flt_iff; rewrite E1, He; now apply xlt_iff). congruence.
  Qed.

  Hypothesis He4 : 4 * dl < e.

  Lemma opt_loop_terminates fuel : forall i low high cur l h c, fval low = XFin l -> fval high = XFin h -> fval cur = XFin c ->
    0 <= l -> l <= c <= h -> h <= m -> Rabs (c - (l + h) / 2) <= 3 / 2 * dl ->
    (h - l - 3 * dl) / 2 ^ S fuel + 4 * dl < e ->
    always (fun _ => True) (opt_loop trial test_count pass_ratio epsilon (S fuel) i low high cur).
  Proof.
    induction fuel as [|fuel IH]; intros i low high cur l h c El Eh Ec Hl Hc Hh Dc B; cbn [opt_loop];
      (eapply always_bind; [apply pass_count_always, Htot|]; intros pc _; cbv zeta; set (b := enough _ _ _));
      apply Rabs_le_inv in Dc;
      (assert (El' : fval (if b then low else cur) = XFin (if b then l else c)) by now destruct b);
      (assert (Eh' : fval (if b then cur else high) = XFin (if b then c else h)) by now destruct b);
      (assert (Hw : (if b then c else h) - (if b then l else c) <= (h - l) / 2 + 3 / 2 * dl) by (destruct b; lra));
      (assert (O1 : 0 <= (if b then l else c)) by (destruct b; lra));
      (assert (O2 : (if b then l else c) <= (if b then c else h)) by (destruct b; lra));
      (assert (O3 : (if b then c else h) <= m) by (destruct b; lra));
      (destruct (flt _ _) eqn:Ef; [exact I|]); pose proof (check_wide _ _ El' Eh' O1 O2 O3 Ef) as W.
    - exfalso. cbn [pow] in B. lra.
    - destruct (middle_acc _ _ El' Eh') as (c' & Ec' & Dc' & Oc'); [lra|lra|].
      pose proof (Rabs_le_inv _ _ Dc') as Dc2.
      apply (IH (S i) _ _ _ _ _ _ El' Eh' Ec' O1); [lra|exact O3|exact Dc'|].
      eapply Rle_lt_trans; [|exact B]. apply Rplus_le_compat_r.
      replace ((h - l - 3 * dl) / 2 ^ S (S fuel)) with ((h - l - 3 * dl) / 2 / 2 ^ S fuel)
        by (cbn [pow]; field; apply pow_nonzero; lra).
      apply Rmult_le_compat_r; [left; apply Rinv_0_lt_compat, pow_lt; lra|]. lra.
  Qed.

  Lemma opt_terminates fuel : (1 <= fuel)%nat -> m / 2 ^ fuel + 4 * dl < e ->
    always (fun _ => True) (opt_accuracy_parameter trial test_count pass_ratio max_param epsilon fuel).
  Proof.
    intros Hf B. destruct fuel as [|fuel]; [lia|]. unfold opt_accuracy_parameter.
    destruct (middle_acc _ _ f0_fin Hm) as (c & Ec & Dc & Oc); [lra|lra|].
    apply (@opt_loop_terminates fuel 0 f0 max_param (middle f0 max_param) 0 m c f0_fin Hm Ec); [lra| |lra|exact Dc|].
    - split; [exact Oc|]. (* (m+0)/2 rounds to at most m *)
      unfold middle in Ec. assert (fval (fadd max_param f0) = XFin m) as E1.
      { rewrite (fadd_fin Hm f0_fin), Rplus_0_r. apply frnd_exact, (fval_exact Hm). }
      rewrite (fdiv_fin E1 f2_fin) in Ec by lra. pose proof (frnd_mono (a := m / 2) (b := m) ltac:(lra)) as M.
      rewrite Ec, (frnd_exact (fval_exact Hm)) in M. now apply xle_iff in M.
    - eapply Rle_lt_trans; [|exact B]. apply Rplus_le_compat_r. pose proof dl_nonneg.
      apply Rmult_le_compat_r; [left; apply Rinv_0_lt_compat, pow_lt; lra|]. lra.
  Qed.
End OptTerm.

Lemma opt_terminates_exact (trial : nat -> nat -> xr -> option bool) tc ratio m e fuel :
  (forall i p, completed trial tc i p) -> 0 <= m -> 0 < e -> (1 <= fuel)%nat -> m < 2 ^ fuel * e ->
  always (fun _ => True) (opt_accuracy_parameter trial tc ratio (XFin m) (XFin e) fuel).
Proof.
  intros Ht Hm He Hf B. pose (L := xr_laws (Z.le_refl 4096)).
  apply (@opt_terminates xr _ L trial tc ratio (XFin m) (XFin e) m e 0 eq_refl eq_refl Hm); auto; try lra.
  - intros r _. exists r. split; [reflexivity|]. rewrite Rminus_eq_0, Rabs_R0. lra.
  - assert (0 < 2 ^ fuel) by (apply pow_lt; lra). rewrite Rmult_0_r, Rplus_0_r. apply Rmult_lt_reg_r with (2 ^ fuel); auto.
    unfold Rdiv. rewrite Rmult_assoc, Rinv_l by lra. lra.
Qed.

(** IEEE rounding on [0, 2m] *)
Section Accuracy.
  Variables prec emax : Z.
  Context {FM : Fmt prec emax}.
  Notation fexp := (SpecFloat.fexp prec emax).

  Lemma brnd_accurate m r : bpow radix2 (2 - emax) <= m -> m <= bpow radix2 (emax - 2) -> 0 <= r <= 2 * m ->
    exists r', brnd prec emax r = XFin r' /\ Rabs (r' - r) <= m * bpow radix2 (1 - prec).
  Proof.
    intros Hm1 Hm2 Hr. assert (Pg : Prec_gt_0 prec) by typeclasses eauto. pose proof (@fmt_prec_ge _ _ FM) as P1.
    pose proof (@fmt_lt _ _ FM) as P2. red in P2.
    assert (Hm : 0 < m) by (eapply Rlt_le_trans; [apply bpow_gt_0|exact Hm1]).
    exists (round radix2 fexp ZnearestE r). split.
    - unfold brnd. rewrite Rlt_bool_true; [reflexivity|].
      assert (0 <= round radix2 fexp ZnearestE r) as R0.
      { rewrite <- (round_0 radix2 fexp ZnearestE). apply round_le; [typeclasses eauto|typeclasses eauto|lra]. }
      rewrite Rabs_pos_eq by exact R0.
      apply Rle_lt_trans with (bpow radix2 (emax - 1)); [|apply bpow_lt; lia].
      rewrite <- (round_generic radix2 fexp ZnearestE (bpow radix2 (emax - 1))).
      + apply round_le; [typeclasses eauto|typeclasses eauto|]. apply Rle_trans with (2 * m); [lra|].
        replace (emax - 1)%Z with (1 + (emax - 2))%Z by lia. rewrite bpow_plus. change (bpow radix2 1) with 2. lra.
      + apply generic_format_bpow. unfold SpecFloat.fexp, SpecFloat.emin. lia.
    - eapply Rle_trans; [apply error_le_half_ulp; typeclasses eauto|].
      assert (ulp radix2 fexp r <= 2 * m * bpow radix2 (1 - prec)); [|lra].
      apply Rle_trans with (ulp radix2 fexp (2 * m)); [apply ulp_le_pos; [typeclasses eauto|typeclasses eauto|lra|lra]|].
      change fexp with (FLT_exp (3 - emax - prec) prec).
      rewrite <- (Rabs_pos_eq (2 * m)) at 2 by lra. apply ulp_FLT_le.
      replace (3 - emax - prec + prec - 1)%Z with (2 - emax)%Z by lia. rewrite Rabs_pos_eq; lra.
  Qed.
End Accuracy.

Section OptIEEE.
  Variables prec emax : Z.
  Context {FM : Fmt prec emax}.
  Notation bf := (binary_float prec emax).
  Existing Instance ieee_ops.
  Existing Instance ieee_laws.

  Lemma opt_terminates_ieee (trial : nat -> nat -> bf -> option bool) tc ratio (mx eps : bf) m e :
    (forall i p, completed trial tc i p) -> fval mx = XFin m -> fval eps = XFin e ->
    bpow radix2 (2 - emax) <= m <= bpow radix2 (emax - 2) -> m * bpow radix2 (4 - prec) <= e ->
    always (fun _ => True) (opt_accuracy_parameter trial tc ratio mx eps (Z.to_nat prec)).
  Proof.
    intros Ht Em Ee [Hm1 Hm2] He. pose proof (@fmt_prec_ge _ _ FM) as P1.
    assert (Hm : 0 < m) by (eapply Rlt_le_trans; [apply bpow_gt_0|exact Hm1]).
    assert (Hb : bpow radix2 (4 - prec) = 8 * bpow radix2 (1 - prec)).
    { replace (4 - prec)%Z with (3 + (1 - prec))%Z by lia. rewrite bpow_plus. change (bpow radix2 3) with 8. lra. }
    assert (Hp : 0 < bpow radix2 (1 - prec)) by apply bpow_gt_0.
    assert (Hq : bpow radix2 (1 - prec) <= 1) by (change 1 with (bpow radix2 0); apply bpow_le; lia).
    assert (Hmp : 0 < m * bpow radix2 (1 - prec)) by now apply Rmult_lt_0_compat.
    rewrite Hb in He.
    apply (@opt_terminates bf _ _ trial tc ratio mx eps m e (m * bpow radix2 (1 - prec)) Em Ee); auto; try lra; try lia.
    - intros r Hr. now apply brnd_accurate.
    - assert (m * bpow radix2 (1 - prec) <= m * 1) by (apply Rmult_le_compat_l; lra). lra.
    - assert (2 ^ Z.to_nat prec = bpow radix2 prec) as ->.
      { rewrite <- (Z2Nat.id prec) at 2 by lia. rewrite bpow_powerRZ. change (IZR radix2) with 2. apply pow_powerRZ. }
      unfold Rdiv. rewrite <- bpow_opp. replace (1 - prec)%Z with (1 + - prec)%Z in * by lia. rewrite bpow_plus in *.
      change (bpow radix2 1) with 2 in *. nra.
  Qed.
End OptIEEE.

(** the search against a deterministic threshold test *)
Section Threshold.
  Variable tc : nat.
  Variable ratio : f64.
  Variable rho : R.
  Hypothesis Htc : (0 < Z.of_nat tc < 2 ^ 32)%Z.
  Hypothesis Hr : fval ratio = XFin rho.
  Hypothesis Hrho : 0 < rho <= 1.

  Lemma verdict_const {F} (trial : nat -> nat -> F -> option bool) i p b : (forall j, trial i j p = Some b) ->
    verdict trial tc ratio i p = b.
  Proof.
    intros H. unfold verdict, successes.
    assert (E : length (filter (fun j => match trial i j p with Some true => true | _ => false end) (seq 0 tc)) = if b then tc else 0%nat).
    { destruct b.
      - rewrite <- (seq_length tc 0) at 2. f_equal. induction (seq 0 tc) as [|a l IH]; cbn; auto. now rewrite H, IH.
      - induction (seq 0 tc) as [|a l IH]; cbn; auto. now rewrite H. }
    rewrite E.
    assert (N : forall n, (n <= tc)%nat -> fval (fof_nat n : f64) = XFin (INR n)).
    { intros n Hn. apply fval_nat. change (Z.of_nat n <= 2 ^ 53)%Z. lia. }
    assert (Hp : 0 < INR tc) by (apply lt_0_INR; lia).
    assert (X : forall z, (Z.abs z <= 1)%Z -> frnd (F := f64) (IZR z) = XFin (IZR z)).
    { intros z Hz. apply frnd_exact, fint_exact. pose proof (@fint_ge f64 _ _). lia. }
    destruct b.
    - apply fle_iff. rewrite Hr, (@fdiv_fin f64 _ _ _ _ _ _ (N tc (le_n _)) (N tc (le_n _))) by lra.
      unfold Rdiv. rewrite Rinv_r by lra. rewrite (X 1%Z) by lia. apply xle_iff. cbn. lra.
    - apply not_true_iff_false. rewrite fle_iff. rewrite Hr, (@fdiv_fin f64 _ _ _ _ _ _ (N 0%nat (Nat.le_0_l _)) (N tc (le_n _))) by lra.
      cbn [INR]. unfold Rdiv. rewrite Rmult_0_l, (X 0%Z) by lia. rewrite xle_iff. cbn. lra.
  Qed.

  (** exact arithmetic: a test passed exactly by the parameters from [t] on *)
  Definition threshold (t : R) : nat -> nat -> xr -> option bool := fun _ _ p => Some (fle (XFin t) p).

  Lemma opt_threshold m e t fuel : 0 <= t <= m -> 0 < e -> (1 <= fuel)%nat -> m < 2 ^ fuel * e ->
    always (fun h => exists r, h = XFin r /\ t <= r < t + e)
      (opt_accuracy_parameter (threshold t) tc ratio (XFin m) (XFin e) fuel).
  Proof.
    intros Ht He Hf B. eapply always_mono.
    - apply always_whenever_and; [apply opt_terminates_exact|apply opt_result_ok]; auto; try lra.
      intros i p j _. discriminate.
    - intros h [_ (ps & _ & _ & P & l & Hl & Q)]. pose (L := xr_laws (Z.le_refl 4096)).
      assert (P' : xle (XFin t) h).
      { destruct P as [(i & _ & _ & V)|[-> _]].
        - rewrite (@verdict_const _ _ i h (fle (XFin t) h)) in V by (intros; reflexivity). now apply (@fle_iff _ _ L) in V.
        - apply xle_iff. cbn. lra. }
      assert (Q' : xle l (XFin t)).
      { destruct Q as [(i & _ & _ & V)|[-> _]].
        - rewrite (@verdict_const _ _ i l (fle (XFin t) l)) in V by (intros; reflexivity).
          destruct l as [|s|a].
          + exfalso. destruct h as [|[]|?]; discriminate Hl.
          + destruct s; [left; reflexivity|]. exfalso. vm_compute in V. discriminate.
          + apply xle_iff. cbn. destruct (Rle_or_lt a t); auto. exfalso. apply not_true_iff_false in V. apply V. apply (@fle_iff _ _ L). apply xle_iff. cbn. lra.
        - apply xle_iff. cbn. lra. }
      apply (@flt_iff _ _ L) in Hl. cbn [fval L xr_laws] in Hl.
      rewrite xle_iff in P', Q'. rewrite xlt_iff in Hl.
      destruct h as [|[]|r]; try (cbn in P'; contradiction).
      + destruct l as [|[]|a]; cbn in Hl, Q'; contradiction.
      + destruct l as [|[]|a]; try (cbn in Hl, Q'; contradiction). cbn in *. exists r. split; auto. lra.
  Qed.
End Threshold.

(** ** What can go wrong *)
Section OptFail.
  Context {F : Type} {FO : FloatOps F}.
  Variable trial : nat -> nat -> F -> option bool.
  Variable tc : nat.
  Variable ratio : f64.
  Variables max_param epsilon : F.

  (** if no parameter ever passes, [max_param] is returned all the same *)
  Lemma opt_all_fail fuel : (forall i p, verdict trial tc ratio i p = false) ->
    whenever (fun h => h = max_param) (opt_accuracy_parameter trial tc ratio max_param epsilon fuel).
  Proof.
    intros H. eapply whenever_mono; [apply opt_result_ok|].
    intros h (ps & _ & _ & [(i & _ & _ & P)|[-> _]] & _); [|reflexivity]. rewrite H in P. discriminate.
  Qed.

  (** without tests, 0/0 tests have passed: the verdict is a failure *)
  Lemma no_tests_fail i p : tc = 0%nat -> verdict trial tc ratio i p = false.
  Proof.
    intros ->. unfold verdict, successes. cbn [seq filter length].
    assert (E : fval (fdiv (fof_nat 0) (fof_nat 0) : f64) = XNaN).
    { apply fdiv_zero; apply (fval_nat (F := f64) 0); pose proof (@fint_ge f64 _ _); cbn; lia. }
    apply not_true_iff_false. rewrite (fle_iff (F := f64)), E. destruct (fval ratio) as [|[]|]; intros [H|H]; discriminate H.
  Qed.
End OptFail.

Section OptStuck.
  Context {F : Type} {FO : FloatOps F}.
  Variable tr : F -> bool.
  Variable ratio : f64.
  Variable epsilon : F.
  Hypothesis H1 : enough 1 ratio 1 = true.
  Hypothesis H0 : enough 1 ratio 0 = false.
  Notation st := (F * F * F)%type.

  Definition narrow (s : st) : st :=
    let '(low, high, cur) := s in
    let b := tr cur in
    (if b then low else cur, if b then cur else high, middle (if b then low else cur) (if b then cur else high)).
  Definition close (s : st) : bool := let '(low, high, _) := s in flt (fsub high low) epsilon.

  Lemma opt_loop_narrow fuel i low high cur :
    opt_loop (fun _ _ p => Some (tr p)) 1 ratio epsilon (S fuel) i low high cur =
    (let '(low', high', cur') := narrow (low, high, cur) in
     if close (narrow (low, high, cur)) then Ret high' else opt_loop (fun _ _ p => Some (tr p)) 1 ratio epsilon fuel (S i) low' high' cur').
  Proof.
    cbn [opt_loop]. unfold pass_count. cbn [seq map passes bind]. unfold narrow, close. destruct (tr cur); rewrite ?H1, ?H0; reflexivity.
  Qed.

  Lemma iter_r {A} (f : A -> A) k a : Nat.iter (S k) f a = Nat.iter k f (f a).
  Proof. induction k as [|k IH]; [reflexivity|]. cbn [Nat.iter nat_rect] in *. now rewrite IH. Qed.

  Lemma opt_loop_stuck fuel : forall i s, (forall k, close (Nat.iter (S k) narrow s) = false) ->
    opt_loop (fun _ _ p => Some (tr p)) 1 ratio epsilon fuel i (fst (fst s)) (snd (fst s)) (snd s) = Diverge.
  Proof.
    induction fuel as [|fuel IH]; intros i s H; [reflexivity|].
    rewrite opt_loop_narrow. rewrite <- !surjective_pairing. pose proof (H 0%nat) as H'. cbn [Nat.iter nat_rect] in H'. rewrite H'.
    pose proof (IH (S i) (narrow s)) as J. destruct (narrow s) as [[l h] c] eqn:E. apply J.
    intros k. specialize (H (S k)). rewrite iter_r in H. now rewrite E in H.
  Qed.
End OptStuck.

(** ** A search that never ends *)
Definition stuck_test (p : f64) : bool := fle (frat 3 4) p.
Definition stuck_start : f64 * f64 * f64 := (f0, frat 3 2, middle f0 (frat 3 2)).
Definition tiny : f64 := frat 1 (2 ^ 60).
Definition sf3 (s : f64 * f64 * f64) := (B2SF (fst (fst s)), B2SF (snd (fst s)), B2SF (snd s)).

Lemma sf3_inj s t : sf3 s = sf3 t -> s = t.
Proof. destruct s as [[? ?] ?], t as [[? ?] ?]. unfold sf3. cbn [fst snd]. intros H. injection H as A B C. apply B2SF_inj in A, B, C. now subst. Qed.

Lemma stuck_60 : narrow stuck_test (Nat.iter 60 (narrow stuck_test) stuck_start) = Nat.iter 60 (narrow stuck_test) stuck_start.
Proof. apply sf3_inj. vm_compute. reflexivity. Qed.

Lemma stuck_open : forallb (fun k => negb (close tiny (Nat.iter k (narrow stuck_test) stuck_start))) (seq 0 61) = true.
Proof. vm_compute. reflexivity. Qed.

Lemma iter_fix {A} (f : A -> A) s p : f (Nat.iter p f s) = Nat.iter p f s -> forall n, Nat.iter (n + p) f s = Nat.iter p f s.
Proof. intros H. induction n as [|n IH]; [reflexivity|]. cbn [Nat.add Nat.iter nat_rect]. unfold Nat.iter in IH. rewrite IH. exact H. Qed.
Lemma iter_open {A} (f : A -> A) (P : A -> bool) s p : f (Nat.iter p f s) = Nat.iter p f s ->
  forallb (fun k => negb (P (Nat.iter k f s))) (seq 0 (S p)) = true -> forall k, P (Nat.iter k f s) = false.
Proof.
  intros H O k. rewrite forallb_forall in O. destruct (le_lt_dec k p) as [Hk|Hk].
  - apply negb_true_iff, O, in_seq. lia.
  - replace k with ((k - p) + p)%nat by lia. rewrite iter_fix by exact H. apply negb_true_iff, (O p). apply in_seq. lia.
Qed.
Lemma ratio_one : enough 1 (fofZ 1) 1 = true /\ enough 1 (fofZ 1) 0 = false.
Proof. split; vm_compute; reflexivity. Qed.
Lemma tiny_pos : flt f0 tiny = true. Proof. vm_compute. reflexivity. Qed.

Lemma stuck_forever : flt f0 tiny = true /\ (forall i p, completed (fun _ _ p => Some (stuck_test p)) 1 i p) /\
  forall fuel, opt_accuracy_parameter (fun _ _ p => Some (stuck_test p)) 1 (fofZ 1 : f64) (frat 3 2) tiny fuel = Diverge.
Proof.
  split; [exact tiny_pos|]. split; [intros i p j _; discriminate|]. intros fuel. unfold opt_accuracy_parameter.
  exact (@opt_loop_stuck f64 f64_ops stuck_test (fofZ 1) tiny (proj1 ratio_one) (proj2 ratio_one) fuel 0%nat stuck_start
    (fun k => @iter_open _ (narrow stuck_test) (close tiny) stuck_start 60 stuck_60 stuck_open (S k))).
Qed.

(** ** Centroid addition, exact arithmetic *)
Section CenAdd.
  Definition rcen (m w : R) : centroid xr := Cen (XFin m) (XFin w).

  Lemma cen_add_fin m1 w1 m2 w2 : w1 + w2 <> 0 -> cen_add (rcen m1 w1) (rcen m2 w2) = rcen ((m1 * w1 + m2 * w2) / (w1 + w2)) (w1 + w2).
  Proof. intros H. unfold cen_add, rcen. cbn [mean weight]. now rewrite xadd_fin, !xmul_fin, xadd_fin, xdiv_fin by exact H. Qed.

  Lemma cen_add_ok m1 w1 m2 w2 : 0 < w1 -> 0 < w2 -> exists m, cen_add (rcen m1 w1) (rcen m2 w2) = rcen m (w1 + w2) /\
    Rmin m1 m2 <= m <= Rmax m1 m2 /\ m * (w1 + w2) = m1 * w1 + m2 * w2.
  Proof.
    intros H1 H2. exists ((m1 * w1 + m2 * w2) / (w1 + w2)). split; [apply cen_add_fin; lra|]. split; [|field; lra].
    assert (0 < w1 + w2) by lra. pose proof (Rmin_l m1 m2). pose proof (Rmin_r m1 m2). pose proof (Rmax_l m1 m2). pose proof (Rmax_r m1 m2).
    split; apply Rmult_le_reg_r with (w1 + w2); auto; unfold Rdiv; rewrite Rmult_assoc, Rinv_l by lra; nra.
  Qed.
  Lemma cen_add_comm m1 w1 m2 w2 : cen_add (rcen m1 w1) (rcen m2 w2) = cen_add (rcen m2 w2) (rcen m1 w1).
  Proof. unfold cen_add, rcen. cbn [mean weight]. rewrite !xadd_fin, !xmul_fin, !xadd_fin. now rewrite (Rplus_comm w1), (Rplus_comm (m1 * w1)). Qed.
  Lemma cen_add_assoc m1 w1 m2 w2 m3 w3 : 0 < w1 -> 0 < w2 -> 0 < w3 ->
    cen_add (cen_add (rcen m1 w1) (rcen m2 w2)) (rcen m3 w3) = cen_add (rcen m1 w1) (cen_add (rcen m2 w2) (rcen m3 w3)).
  Proof.
    intros. rewrite !cen_add_fin by lra. unfold rcen. f_equal; f_equal; [|lra]. field. repeat split; lra.
  Qed.
  (** the sum of any list of centroids, in any order and bracketing: the weighted mean *)
  Lemma cen_sum m w l : 0 < w -> Forall (fun c => 0 < snd c) l ->
    fold_left (fun a c => cen_add a (rcen (fst c) (snd c))) l (rcen m w) =
    rcen ((m * w + sumR (map (fun c => fst c * snd c) l)) / (w + sumR (map snd l))) (w + sumR (map snd l)).
  Proof.
    intros Hw H. revert m w Hw. induction H as [|[a b] l H _ IH]; intros m w Hw.
    - cbn. unfold rcen. f_equal; f_equal; [field; lra|lra].
    - cbn [fold_left fst snd map]. cbn [snd] in H. rewrite cen_add_fin by lra. rewrite IH by lra. unfold sumR. cbn [map fold_right fst snd].
      unfold rcen. f_equal; f_equal; [|lra]. f_equal; [field; lra|]. lra.
  Qed.
End CenAdd.

(* ------------------------------------------------------------------ *)
(** * sample_digest_accuracy *)
Section SampleProofs.
  Context {F : Type} {FO : FloatOps F}.
  Variable D : digest F.
  Variable gen : nat -> list F.
  Variable create : nat -> list F -> M (dst D).
  Variable test_func : forall E : digest F, dst E -> M F.
  Variable error_func : F -> F -> F.

  Lemma mapM_seq_whenever {A B} (f : A -> M B) (P : A -> B -> Prop) l : (forall a, whenever (P a) (f a)) ->
    whenever (fun r => Forall2 P l r) (mapM f l).
  Proof.
    intros H. induction l as [|a l IH]; cbn [mapM]; [constructor|].
    eapply whenever_bind; [apply H|]. intros b Hb. eapply whenever_bind; [exact IH|]. intros r Hr. now constructor.
  Qed.

  Lemma Forall2_len {A B} (P : A -> B -> Prop) l r : Forall2 P l r -> length l = length r.
  Proof. induction 1; cbn; auto. Qed.

  Lemma sample_spec n : whenever (fun errs => length errs = n /\
      forall j x, nth_error errs j = Some x -> exists d measured actual, returns (create j (gen j)) d /\
        returns (test_func D d) measured /\ returns (test_func (@linear_digest F FO) (gen j)) actual /\ x = error_func measured actual)
    (sample_digest_accuracy D gen create test_func error_func n).
  Proof.
    unfold sample_digest_accuracy.
    eapply whenever_mono; [apply mapM_seq_whenever with (P := fun j x => exists d measured actual, returns (create j (gen j)) d /\
        returns (test_func D d) measured /\ returns (test_func (@linear_digest F FO) (gen j)) actual /\ x = error_func measured actual)|].
    - intros j. apply whenever_returns. intros x Hx. unfold sample_one in Hx.
      apply returns_bind_inv in Hx as (d & Hd & Hx). apply returns_bind_inv in Hx as (a & Ha & Hx).
      apply returns_bind_inv in Hx as (b & Hb & Hx). cbn in Hx. exists d, a, b. repeat split; auto.
    - intros r H. split; [now rewrite <- (Forall2_len H), seq_length|].
      intros j x Hx. assert (Hj : (j < length r)%nat) by (apply nth_error_Some; congruence).
      rewrite <- (Forall2_len H), seq_length in Hj.
      assert (G : forall s l r, Forall2 (fun j x => exists d measured actual, returns (create j (gen j)) d /\
        returns (test_func D d) measured /\ returns (test_func (@linear_digest F FO) (gen j)) actual /\ x = error_func measured actual) (seq s l) r ->
        forall j x, nth_error r j = Some x -> exists d measured actual, returns (create (s + j)%nat (gen (s + j)%nat)) d /\
        returns (test_func D d) measured /\ returns (test_func (@linear_digest F FO) (gen (s + j)%nat)) actual /\ x = error_func measured actual).
      { clear. intros s l. revert s. induction l as [|l IH]; intros s r H j x Hx; cbn [seq] in H; inversion H as [|? ? ? ? P Q E1 E2]; subst.
        - destruct j; discriminate.
        - destruct j as [|j]; cbn in Hx; [injection Hx as ->; now rewrite Nat.add_0_r|].
          destruct (IH _ _ Q _ _ Hx) as (d & a & b & R). rewrite Nat.add_succ_l in R. rewrite Nat.add_succ_r. eauto. }
      apply (G _ _ _ H j x Hx).
  Qed.
End SampleProofs.

(* ------------------------------------------------------------------ *)
(** * Generators *)
(** the probability of an increment once the value is [z] (it starts at 1), in f64 *)
Definition block_prob (z : Z) : f64 := Nat.iter (Z.to_nat (z - 1)) (fun p => fmul p (frat 98 100)) (frat 1 1000).
Section GenProofs.
  Context {F : Type} {FO : FloatOps F} {FL : FloatLaws F}.

  Lemma asc_length size : length (gen_asc_vec size : list F) = Z.to_nat size.
  Proof. unfold gen_asc_vec. now rewrite map_length, seq_length. Qed.
  Lemma asc_nth size i : (Z.of_nat i < size)%Z -> nth_error (gen_asc_vec size : list F) i = Some (fofZ (Z.of_nat i)).
  Proof.
    intros H. unfold gen_asc_vec. rewrite nth_error_map.
    assert (E : nth_error (seq 0 (Z.to_nat size)) i = Some i).
    { rewrite (nth_error_nth' _ 0%nat) by (rewrite seq_length; lia). now rewrite seq_nth by lia. }
    now rewrite E.
  Qed.
  Lemma asc_exact size i : (Z.of_nat i < size)%Z -> (size <= fint + 1)%Z ->
    exists x, nth_error (gen_asc_vec size : list F) i = Some x /\ fval x = XFin (INR i).
  Proof. intros H Hs. eexists. split; [now apply asc_nth|]. apply (fval_nat i). lia. Qed.
  Lemma asc_sorted size i x y : nth_error (gen_asc_vec size : list F) i = Some x -> nth_error (gen_asc_vec size) (S i) = Some y ->
    fle x y = true.
  Proof.
    intros Hx Hy. assert (Hl : (S i < Z.to_nat size)%nat) by (rewrite <- asc_length; apply nth_error_Some; congruence).
    rewrite asc_nth in Hx, Hy by lia. injection Hx as <-. injection Hy as <-. apply fle_iff. rewrite !fofZ_val. apply frnd_mono, IZR_le. lia.
  Qed.
  Lemma asc_centroids size : gen_asc_centroid_vec size = map (fun x : F => Cen x f1) (gen_asc_vec size).
  Proof. unfold gen_asc_centroid_vec, gen_asc_vec. now rewrite map_map. Qed.

  (** growing blocks: the integers, each step 0 or 1 *)
  Lemma blocks_length draw n : forall i prob (val : F), length (blocks_loop draw n i prob val) = n.
  Proof. induction n; intros; cbn [blocks_loop length]; auto. Qed.
  Lemma blocks_ints draw n : forall i (val : F) z, fval val = XFin (IZR z) -> (1 <= z)%Z -> (z + Z.of_nat n <= fint)%Z ->
    exists zs, map fval (blocks_loop draw n i (block_prob z) val) = map (fun z => XFin (IZR z)) zs /\
      forall pre a b post, z :: zs = pre ++ a :: b :: post -> b = if fle (draw (i + length pre)%nat) (block_prob a) then (a + 1)%Z else a.
  Proof.
    induction n as [|n IH]; intros i val z Hv Hz Hf; cbn [blocks_loop].
    - exists []. split; [reflexivity|]. intros [|? [|]] ? ? ? E; discriminate E.
    - set (hit := fle _ _). pose (z' := if hit then (z + 1)%Z else z).
      assert (Hv' : fval (if hit then fadd val f1 else val) = XFin (IZR z')).
      { unfold z'. destruct hit; auto. assert (H1 : fval (f1 : F) = XFin (IZR 1)) by (apply fval_int; pose proof (@fint_ge F _ _); lia).
        rewrite (fadd_fin Hv H1), <- plus_IZR.
        apply frnd_exact, fint_exact. lia. }
      assert ((if hit then fmul (block_prob z) (frat 98 100) else block_prob z) = block_prob z') as Ep.
      { unfold z'. destruct hit; auto. unfold block_prob. replace (Z.to_nat (z + 1 - 1)) with (S (Z.to_nat (z - 1))) by lia. reflexivity. }
      rewrite Ep. destruct (IH (S i) _ z' Hv') as (zs & E & S1); [unfold z'; destruct hit; lia|unfold z'; destruct hit; lia|].
      exists (z' :: zs). cbn [map]. split; [now rewrite Hv', E|].
      intros [|p pre] a b post Eq; cbn [app] in Eq.
      + injection Eq as <- <- _. cbn [length]. rewrite Nat.add_0_r. unfold z'. fold hit. reflexivity.
      + injection Eq as <- Eq. cbn [length]. rewrite Nat.add_succ_r. now apply (S1 pre a b post).
  Qed.
End GenProofs.

Lemma asc_f64 size i : (Z.of_nat i < size < 2 ^ 31)%Z ->
  exists x : f64, nth_error (gen_asc_vec size) i = Some x /\ fval x = XFin (INR i).
Proof. intros H. apply asc_exact; [lia|]. change (fint (F := f64)) with (2 ^ 53)%Z. lia. Qed.
Lemma asc_f32 : exists size i (x y : f32), (size < 2 ^ 31)%Z /\
  nth_error (gen_asc_vec size) i = Some x /\ nth_error (gen_asc_vec size) (S i) = Some y /\ feq x y = true.
Proof.
  exists (2 ^ 24 + 2)%Z, (Z.to_nat (2 ^ 24)). exists (fofZ (2 ^ 24)), (fofZ (2 ^ 24 + 1)). split; [lia|]. split; [|split].
  - rewrite asc_nth by lia. now rewrite Z2Nat.id by lia.
  - rewrite asc_nth by lia. now rewrite Nat2Z.inj_succ, Z2Nat.id by lia.
  - vm_compute. reflexivity.
Qed.
Lemma blocks_spec F (FO : FloatOps F) (FL : FloatLaws F) draw size : (1 + size <= fint)%Z ->
  exists zs, map fval (gen_growing_blocks_vec draw size : list F) = map (fun z => XFin (IZR z)) zs /\ length zs = Z.to_nat size /\
    forall pre a b post, (1 :: zs = pre ++ a :: b :: post)%Z -> b = if fle (draw (length pre)) (block_prob a) then (a + 1)%Z else a.
Proof.
  intros H. assert (H1 : fval (f1 : F) = XFin (IZR 1)) by (apply fval_int; pose proof (@fint_ge F _ _); lia).
  destruct (@blocks_ints F FO FL draw (Z.to_nat size) 0 f1 1%Z H1) as (zs & E & S1); [lia|pose proof (@fint_ge F _ _); lia|].
  exists zs. split; [exact E|]. split; [|exact S1].
  rewrite <- (map_length (fun z => XFin (IZR z)) zs), <- E, map_length. apply blocks_length.
Qed.

(* ------------------------------------------------------------------ *)
(** * owned_size *)
Section Sizes.
  Local Open Scope N_scope.
  (** what [owned_size] should be: the value itself and every allocation once *)
  Definition memory (s : sized) : N := sz_self s + sumN (sz_allocs s).
  Definition counted (s : sized) : Prop := sz_owned s = memory s.

  Lemma sumN_app l l' : sumN (l ++ l') = sumN l + sumN l'.
  Proof. induction l as [|a l IH]; [reflexivity|]. unfold sumN in *. cbn [fold_right app]. rewrite IH. lia. Qed.
  Lemma sumN_cons a l : sumN (a :: l) = a + sumN l. Proof. reflexivity. Qed.

  Lemma tdigest_counted self cen cap : counted (size_tdigest self cen cap).
  Proof. unfold counted, memory, size_tdigest; cbn [sz_self sz_allocs sz_owned]. rewrite sumN_cons. change (sumN []) with 0. lia. Qed.
  Lemma buffered_counted self f cap d : counted d ->
    exists s, size_buffered self f cap d = Ret s /\ counted s /\ sz_self s = self /\ sz_allocs s = f * cap :: sz_allocs d.
  Proof.
    intros H. unfold counted, memory in H. unfold size_buffered, minus. replace (sz_owned d <? sz_self d) with false by (symmetry; apply N.ltb_ge; lia).
    cbn [bind]. eexists. split; [reflexivity|]. split; [|split; reflexivity]. unfold counted, memory. cbn [sz_self sz_allocs sz_owned].
    rewrite sumN_cons. lia.
  Qed.
  Lemma par_tdigest_counted self f cap dself cen dcap :
    exists s, size_par_tdigest self f cap dself cen dcap = Ret s /\ counted s /\ sz_self s = self /\ sz_allocs s = [f * cap; cen * dcap].
  Proof.
    destruct (buffered_counted self f cap (tdigest_counted dself cen dcap)) as (s & E & H). exists s. split; [exact E|exact H].
  Qed.
  Lemma rc_counted self v f cap bufs counters : counted (size_rc self v f cap bufs counters).
  Proof. unfold counted, memory, size_rc; cbn [sz_self sz_allocs sz_owned]. rewrite !sumN_cons. lia. Qed.
  Lemma sym_missing self low high : sz_owned (size_sym self low high) + sumN (sz_allocs low) + sumN (sz_allocs high) = memory (size_sym self low high).
  Proof. unfold memory, size_sym; cbn [sz_self sz_allocs sz_owned]. rewrite sumN_app. lia. Qed.
  Lemma parallel_excess self d cap ds : Forall (fun s => counted s /\ sz_self s = d) ds ->
    sz_owned (size_parallel self d cap ds) = memory (size_parallel self d cap ds) + d * N.of_nat (length ds).
  Proof.
    intros H. unfold memory, size_parallel; cbn [sz_self sz_allocs sz_owned]. rewrite sumN_cons.
    assert (sumN (map sz_owned ds) = sumN (flat_map sz_allocs ds) + d * N.of_nat (length ds)); [|lia].
    induction H as [|s ds [C E] _ IH]; [cbn; lia|]. cbn [map flat_map length]. rewrite sumN_cons, sumN_app, IH. unfold counted, memory in C. lia.
  Qed.
  Lemma rc2_excess self v f cap bufs c : sz_owned (size_rc2 self v f cap bufs c c c) = memory (size_rc2 self v f cap bufs c c c) + 4 * c.
  Proof. unfold memory, size_rc2; cbn [sz_self sz_allocs sz_owned]. rewrite !sumN_cons. lia. Qed.
End Sizes.
