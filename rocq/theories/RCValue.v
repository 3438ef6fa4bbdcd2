(** Accuracy of the value queries of RCSketch. *)
From Coq Require Import List Arith ZArith NArith Lia Bool Permutation Sorted Reals Lra.
From Flocq Require Import Core.
From Verif Require Import Base Floats XReal Digest Spec FloatFacts History TDigest RCSketch RCProofs RCHist RCRank RCExpect RCTop RCQuery RCObs RCObs2 RCRelTop.
Set Implicit Arguments.
Local Open Scope nat_scope.

Lemma always_forall {A B} (P : B -> A -> Prop) (m : M A) : inhabited B -> (forall b, always (P b) m) -> always (fun a => forall b, P b a) m.
Proof. intros [b0]. induction m as [a| | |f IH]; cbn; intros H; auto; try (exact (H b0)). Qed.

Definition rleb (a b : R) : bool := if Rle_dec a b then true else false.
Lemma rleb_true a b : rleb a b = true <-> (a <= b)%R.
Proof. unfold rleb. destruct (Rle_dec a b); split; auto; discriminate. Qed.

Section RCV.
  Context {F : Type} {FO : FloatOps F} {FL : FloatLaws F}.
  Notation level := (@level F).

  Lemma argmax (l : list F) (p : F -> bool) : no_nan l -> existsb p l = true ->
    exists m, In m l /\ p m = true /\ forall y, In y l -> p y = true -> fle y m = true.
  Proof.
    induction l as [|x l IH]; cbn [existsb]; [discriminate|]. intros Hn H. pose proof (Forall_inv Hn) as Hx. pose proof (Forall_inv_tail Hn) as Hl. cbn beta in Hx.
    destruct (existsb p l) eqn:E.
    - destruct (IH Hl eq_refl) as (m & M1 & M2 & M3). destruct (p x) eqn:Ex.
      + assert (fisnan m = false) as Hm by (unfold no_nan in Hl; rewrite Forall_forall in Hl; now apply Hl).
        destruct (fle_total x m Hx Hm) as [L|L].
        * exists m. split; [now right|]. split; [exact M2|]. intros y [ <- |Hy] Hp; auto.
        * exists x. split; [now left|]. split; [exact Ex|]. intros y [ <- |Hy] Hp; [now apply fle_refl|]. apply flt_fle. eapply fle_flt_trans; [apply M3; auto|exact L].
      + exists m. split; [now right|]. split; [exact M2|]. intros y [ <- |Hy] Hp; [congruence|auto].
    - rewrite orb_false_r in H. exists x. split; [now left|]. split; [exact H|]. intros y [ <- |Hy] Hp; [now apply fle_refl|].
      exfalso. assert (existsb p l = true) by (apply existsb_exists; eauto). congruence.
  Qed.
  Lemma argmin (l : list F) (p : F -> bool) : no_nan l -> existsb p l = true ->
    exists m, In m l /\ p m = true /\ forall y, In y l -> p y = true -> fle m y = true.
  Proof.
    induction l as [|x l IH]; cbn [existsb]; [discriminate|]. intros Hn H. pose proof (Forall_inv Hn) as Hx. pose proof (Forall_inv_tail Hn) as Hl. cbn beta in Hx.
    destruct (existsb p l) eqn:E.
    - destruct (IH Hl eq_refl) as (m & M1 & M2 & M3). destruct (p x) eqn:Ex.
      + assert (fisnan m = false) as Hm by (unfold no_nan in Hl; rewrite Forall_forall in Hl; now apply Hl).
        destruct (fle_total m x Hm Hx) as [L|L].
        * exists m. split; [now right|]. split; [exact M2|]. intros y [ <- |Hy] Hp; auto.
        * exists x. split; [now left|]. split; [exact Ex|]. intros y [ <- |Hy] Hp; [now apply fle_refl|]. apply flt_fle. eapply flt_fle_trans; [exact L|apply M3; auto].
      + exists m. split; [now right|]. split; [exact M2|]. intros y [ <- |Hy] Hp; [congruence|auto].
    - rewrite orb_false_r in H. exists x. split; [now left|]. split; [exact H|]. intros y [ <- |Hy] Hp; [now apply fle_refl|].
      exfalso. assert (existsb p l = true) by (apply existsb_exists; eauto). congruence.
  Qed.

  Lemma filter_same (p q : F -> bool) (l : list F) : (forall x, In x l -> p x = q x) -> filter p l = filter q l.
  Proof. induction l as [|x l IH]; intros H; [reflexivity|]. cbn [filter]. rewrite (H x (or_introl eq_refl)), IH; [reflexivity|]. intros y Hy. apply H. now right. Qed.
  (** the greatest item below [x] *)
  Lemma pred_item (items : list F) x : no_nan items -> 1 <= n_lt items x -> exists v, In v items /\ flt v x = true /\ n_le items v = n_lt items x.
  Proof.
    intros Hn H. assert (existsb (fun y => flt y x) items = true) as E.
    { destruct (existsb (fun y => flt y x) items) eqn:E; auto. exfalso. unfold n_lt in H. rewrite filter_none in H; [cbn in H; lia|]. apply Forall_forall. intros y Hy.
      destruct (flt y x) eqn:Ey; auto. assert (existsb (fun y => flt y x) items = true) by (apply existsb_exists; eauto). congruence. }
    destruct (argmax _ Hn E) as (v & V1 & V2 & V3). exists v. split; [exact V1|]. split; [exact V2|]. unfold n_le, n_lt. f_equal. apply filter_same.
    intros y Hy. destruct (flt y x) eqn:Ey; [now apply V3|]. destruct (fle y v) eqn:Ez; auto. rewrite (fle_flt_trans _ _ _ Ez V2) in Ey. discriminate.
  Qed.
  Lemma lv_rank_same (lv : list level) v y : (forall z, In z (lv_items lv) -> fle z v = fle z y) -> lv_rank lv v = lv_rank lv y.
  Proof.
    induction lv as [|[b c] up IH]; intros H; [reflexivity|]. cbn [lv_rank]. unfold lv_items in H. cbn [map concat fst] in H. fold (lv_items up) in H.
    rewrite IH by (intros z Hz; apply H, in_or_app; now right). f_equal. unfold n_le. f_equal. apply filter_same. intros z Hz. apply H, in_or_app. now left.
  Qed.

  (** [x] separates the values of rank at most [t] from those of rank at least [t] *)
  Definition cuts (lv : list level) (t : R) (x : F) : Prop :=
    (forall v, fle x v = true -> (t <= INR (lv_rank lv v))%R) /\ (forall v, flt v x = true -> (INR (lv_rank lv v) <= t)%R).
  Lemma value_below (lv : list level) t x v : no_nan (lv_items lv) -> value_spec lv (XFin t) x -> (0 <= t)%R -> flt v x = true -> (INR (lv_rank lv v) <= t)%R.
  Proof.
    intros Hn (Hin & Hx) Ht0 Hv. destruct (existsb (fun y => fle y v) (lv_items lv)) eqn:E.
    - destruct (argmax _ Hn E) as (y & Y1 & Y2 & Y3).
      assert (lv_rank lv v = lv_rank lv y) as ->.
      { apply lv_rank_same. intros z Hz. destruct (fle z v) eqn:Ez; [symmetry; now apply Y3|]. destruct (fle z y) eqn:Ey; auto. rewrite (fle_trans _ _ _ Ey Y2) in Ez. discriminate. }
      assert (~ xlt (XFin t) (XFin (INR (lv_rank lv y)))) as Hy.
      { destruct Hx as [[_ H2]|[H2 _]]; [|now apply H2]. apply H2; [exact Y1|]. eapply fle_flt_trans; eauto. }
      rewrite xlt_iff in Hy. cbn in Hy. lra.
    - rewrite lv_rank_none; [exact Ht0|]. apply all_in_items. apply Forall_forall. intros y Hy. destruct (fle y v) eqn:Ey; auto.
      assert (existsb (fun y => fle y v) (lv_items lv) = true) by (apply existsb_exists; eauto). congruence.
  Qed.
  Lemma value_above (lv : list level) t x v : value_spec lv (XFin t) x -> fle x v = true -> (Rmin t (INR (lv_weight lv)) <= INR (lv_rank lv v))%R.
  Proof.
    intros (Hin & Hx) Hv. pose proof (lv_rank_mono lv _ _ Hv) as HM. apply le_INR in HM. destruct Hx as [[H1 _]|[_ H2]].
    - apply xlt_iff in H1. cbn in H1. pose proof (Rmin_l t (INR (lv_weight lv))). lra.
    - rewrite (@lv_rank_all F FO lv x) in HM; [pose proof (Rmin_r t (INR (lv_weight lv))); lra|]. apply all_in_items. apply Forall_forall. exact H2.
  Qed.
  Lemma value_cut (lv : list level) t x : no_nan (lv_items lv) -> value_spec lv (XFin t) x -> (0 <= t <= INR (lv_weight lv))%R -> cuts lv t x.
  Proof.
    intros Hn HV [Ht0 Ht1]. split; intros v Hv.
    - pose proof (value_above _ HV Hv) as H. rewrite Rmin_left in H; lra.
    - exact (@value_below lv t x v Hn HV Ht0 Hv).
  Qed.

  (** ranks within [E] of the truth: so are the values *)
  Lemma cuts_error (lv : list level) items t x E : no_nan items -> In x items -> (0 <= t)%R -> (0 <= E)%R -> cuts lv t x ->
    (forall v, (Rabs (INR (lv_rank lv v) - INR (n_le items v)) <= E)%R) -> (INR (n_lt items x) - E <= t <= INR (n_le items x) + E)%R.
  Proof.
    intros Hn Hx Ht HE [C1 C2] HR. assert (fisnan x = false) as Hxn by (unfold no_nan in Hn; rewrite Forall_forall in Hn; now apply Hn). split.
    - destruct (Nat.eq_dec (n_lt items x) 0) as [E0|E0]; [rewrite E0; cbn; lra|]. destruct (@pred_item items x Hn ltac:(lia)) as (v & V1 & V2 & V3).
      specialize (C2 v V2). specialize (HR v). rewrite V3 in HR. apply Rabs_le_inv in HR. lra.
    - specialize (C1 x (fle_refl _ Hxn)). specialize (HR x). apply Rabs_le_inv in HR. lra.
  Qed.

  (** exactly, among the smallest [q] *)
  Lemma guard_min k q (lv : list level) items v : guard k q lv items -> Nat.min q (n_le items v) <= lv_rank lv v.
  Proof.
    destruct lv as [|[b c] up]; cbn [guard lv_rank]; [intros ->; cbn; lia|]. intros (gone & G1 & _ & G3 & _). rewrite (n_le_perm v G1), n_le_app.
    destruct (existsb (fun y => fle y v) gone) eqn:E.
    - apply existsb_exists in E as (y & Y1 & Y2). specialize (G3 y Y1). pose proof (n_le_mono b _ _ Y2). lia.
    - assert (n_le gone v = 0); [|lia]. unfold n_le. rewrite filter_none; [reflexivity|]. apply Forall_forall. intros y Hy. destruct (fle y v) eqn:Ey; auto.
      assert (existsb (fun y => fle y v) gone = true) by (apply existsb_exists; eauto). congruence.
  Qed.
  Lemma value_exact k q (lv : list level) items t x : no_nan items -> no_nan (lv_items lv) -> guard k q lv items ->
    value_spec lv (XFin t) x -> (0 <= t < INR (length items))%R -> (t < INR q)%R ->
    (INR (n_lt items x) <= t < INR (n_le items x))%R.
  Proof.
    intros Hn Hn' HG HV [Ht0 Ht1] Htq.
    assert (fisnan x = false) as Hxn by (destruct HV as [Hi _]; unfold no_nan in Hn'; rewrite Forall_forall in Hn'; now apply Hn'). split.
    - destruct (Nat.eq_dec (n_lt items x) 0) as [E0|E0]; [rewrite E0; cbn; lra|]. destruct (@pred_item items x Hn ltac:(lia)) as (v & V1 & V2 & V3).
      pose proof (@value_below lv t x v Hn' HV Ht0 V2) as C2. pose proof (@guard_min k q lv items v HG) as HM. rewrite V3 in HM. apply le_INR in HM.
      destruct (Nat.min_spec q (n_lt items x)) as [[_ E]|[_ E]]; rewrite E in HM; lra.
    - assert (t < INR (lv_rank lv x))%R as Hr.
      { destruct HV as [Hi [[H1 _]|[_ H2]]]; [now apply xlt_iff in H1|]. destruct lv as [|[b c] up]; [destruct Hi|]. cbn [guard] in HG. destruct HG as (gone & G1 & _ & G3 & G4).
        assert (n_le b x = length b) as Eb by (apply all_le_rank; intros y Hy; apply H2; unfold lv_items; cbn [map concat fst]; apply in_or_app; now left).
        cbn [lv_rank]. destruct gone as [|g gone].
        - apply Permutation_length in G1. rewrite app_nil_r in G1. rewrite Eb, <- G1. rewrite plus_INR. pose proof (pos_INR (2 * lv_rank up x)). lra.
        - specialize (G3 g (or_introl eq_refl)). pose proof (n_le_length b g). assert (q <= n_le b x + 2 * lv_rank up x) as HL by lia. apply le_INR in HL. lra. }
      destruct (Nat.le_gt_cases (n_le items x) q) as [L|L].
      + rewrite <- (@guard_exact F FO FL k q lv items x HG L). exact Hr.
      + apply lt_INR in L. lra.
  Qed.
  (** weights not conserved: once more the error *)
  Lemma value_error_any (lv : list level) items t x E : no_nan items -> no_nan (lv_items lv) -> (forall y, In y (lv_items lv) -> In y items) -> In x items -> (0 <= t <= INR (length items))%R -> (0 <= E)%R ->
    value_spec lv (XFin t) x -> (forall v, (Rabs (INR (lv_rank lv v) - INR (n_le items v)) <= E)%R) ->
    (INR (n_lt items x) - E <= t <= INR (n_le items x) + 2 * E)%R /\ ((t <= INR (length items) - E)%R -> (t <= INR (n_le items x) + E)%R).
  Proof.
    intros Hn Hn' Hsub Hx [Ht0 Ht1] HE HV HR. assert (fisnan x = false) as Hxn by (unfold no_nan in Hn; rewrite Forall_forall in Hn; now apply Hn).
    assert (Rmin t (INR (lv_weight lv)) <= INR (n_le items x) + E)%R as H1.
    { pose proof (value_above _ HV (fle_refl _ Hxn)) as H. specialize (HR x). apply Rabs_le_inv in HR. lra. }
    assert (INR (length items) - E <= INR (lv_weight lv))%R as H2.
    { destruct (@argmax items (fun _ => true) Hn) as (m & M1 & _ & M3); [apply existsb_exists; eauto|]. specialize (HR m).
      assert (n_le items m = length items) as E1 by (apply all_le_rank; intros y Hy; now apply M3).
      assert (lv_rank lv m = lv_weight lv) as E2 by (apply lv_rank_all, all_in_items, Forall_forall; intros y Hy; apply M3; auto).
      rewrite E1, E2 in HR. apply Rabs_le_inv in HR. lra. }
    split; [split|].
    - destruct (Nat.eq_dec (n_lt items x) 0) as [E0|E0]; [rewrite E0; cbn; lra|]. destruct (@pred_item items x Hn ltac:(lia)) as (v & V1 & V2 & V3).
      pose proof (@value_below lv t x v Hn' HV Ht0 V2) as C2. specialize (HR v). rewrite V3 in HR. apply Rabs_le_inv in HR. lra.
    - unfold Rmin in H1. destruct (Rle_dec t (INR (lv_weight lv))); lra.
    - intros Ht. rewrite Rmin_left in H1; lra.
  Qed.

  (** ** RCSketch *)
  Section Runs.
    Variables (lg : F -> F) (n k : nat) (ops : list (rop F)) (q : F) (r : R).
    Hypothesis Hp : proper lg n k ops.
    Hypothesis Hm : default_mode ops.
    Hypothesis He : Nat.even k = true.
    Hypothesis Hf : few_levels31 n k ops.
    Hypothesis Hne : ritems_of ops <> [].
    Hypothesis Hi : (Z.of_nat (length (ritems_of ops)) <= fint)%Z.
    Hypothesis Hq : fval q = XFin r.
    Hypothesis Hr : (0 <= r <= 1)%R.
    Notation items := (ritems_of ops).
    Notation N := (length (ritems_of ops)).

    Lemma rank_sought : exists t, fval (fmul q (fofZ (Z.of_nat N))) = XFin t /\ (0 <= t <= INR N)%R.
    Proof using FL Hq Hr Hi.
      assert (fval (fofZ (Z.of_nat N)) = XFin (INR N)) as EN by (rewrite fval_int by lia; now rewrite INR_IZR_INZ).
      pose proof (pos_INR N) as HN.
      destruct (@frnd_range F FO FL 0 (INR N) (r * INR N)) as (t & E & Ht); [apply fexact_0|now apply fexact_nat|nra|].
      exists t. split; [|exact Ht]. rewrite (fmul_fin Hq EN). exact E.
    Qed.

    Lemma run_cuts t : fval (fmul q (fofZ (Z.of_nat N))) = XFin t -> (0 <= t <= INR N)%R ->
      always (fun s => exists x, rc_est_value s q = Ret x /\ In x items /\ cuts (rc_levels s) t x) (rc_run lg n k ops).
    Proof using FL Hp Hm He Hf Hne Hi.
      intros Ht H01. eapply always_mono; [apply (@even_always F FO FL lg n k ops Hp (default_mode_method Hm) He Hf)|]. intros s Hs.
      destruct (@even_state_value F FO FL _ s q Hs Hne Hi) as (x & X1 & X2 & X3). exists x. split; [exact X1|]. split; [exact X2|].
      rewrite Ht in X3. destruct Hs as (_ & S2 & _ & S4 & _). apply value_cut; auto. rewrite S2. exact H01.
    Qed.


    Lemma few_31_64 : few_levels n k ops.
    Proof using Hm He Hf.
      destruct Hf as [[H1 H2]|H1]; [right|left].
      - split; [now apply default_non_fast|]. auto.
      - split; [exact He|lia].
    Qed.
    Lemma rank_state v (P : Z -> Prop) : always P (rank_after lg n k ops v) -> always (fun s => P (Z.of_nat (lv_rank (rc_levels s) v))) (rc_run lg n k ops).
    Proof using FL Hp Hm He Hf.
      unfold rank_after. rewrite always_bind_iff. intros H. eapply always_mono; [apply always_and; [exact H|apply (@even_always F FO FL lg n k ops Hp (default_mode_method Hm) He Hf)]|].
      cbn beta. intros s [H1 (H2 & _)]. rewrite interpolate_rank_val in H1 by lia. exact H1.
    Qed.
    Lemma value_from_state (P : F -> Prop) : always (fun s => exists x, rc_est_value s q = Ret x /\ P x) (rc_run lg n k ops) -> always P (value_after lg n k ops q).
    Proof using Type.
      intros H. unfold value_after. rewrite always_bind_iff. eapply always_mono; [exact H|]. cbn beta. intros s (x & -> & Hx). exact Hx.
    Qed.

    Theorem value_error h bs : calc_buffer_size lg n k = Ret bs -> N < bs * 2 ^ h ->
      exists t, fval (fmul q (fofZ (Z.of_nat N))) = XFin t /\
        always (fun x => In x items /\ (INR k * INR (n_lt items x) - INR (h * N) <= INR k * t <= INR k * INR (n_le items x) + INR (h * N))%R) (value_after lg n k ops q).
    Proof using FL Hp Hm He Hf Hne Hi Hq Hr.
      intros Hc Hh. destruct rank_sought as (t & Ht & H01). exists t. split; [exact Ht|]. apply value_from_state.
      assert (always (fun s => forall v, (Z.of_nat k * Z.abs (Z.of_nat (lv_rank (rc_levels s) v) - Z.of_nat (n_le items v)) <= Z.of_nat (h * N))%Z) (rc_run lg n k ops)) as HA.
      { apply always_forall; [constructor; exact q|]. intros v. apply (@rank_state v (fun z => (Z.of_nat k * Z.abs (z - Z.of_nat (n_le items v)) <= Z.of_nat (h * N))%Z)).
        apply (@rank_error_even F FO FL lg n k ops v h bs Hp Hm few_31_64 He Hc Hh). }
      eapply always_mono; [apply always_and; [exact HA|apply (run_cuts Ht H01)]|]. cbn beta. intros s [HR (x & X1 & X2 & X3)]. exists x. split; [exact X1|]. split; [exact X2|].
      assert (0 < INR k)%R as Hk by (apply lt_0_INR; destruct Hp as ((? & _) & _); lia).
      assert (0 <= INR (h * N) / INR k)%R as HE by (apply Rmult_le_pos; [apply pos_INR|apply Rlt_le, Rinv_0_lt_compat; exact Hk]).
      destruct (@cuts_error (rc_levels s) items t x (INR (h * N) / INR k)) as [E1 E2]; auto; [apply Hp|lra| |].
      - intros v. specialize (HR v). apply IZR_le in HR. rewrite mult_IZR, abs_IZR, minus_IZR, <- !INR_IZR_INZ in HR.
        apply Rmult_le_reg_l with (INR k); [exact Hk|]. replace (INR k * (INR (h * N) / INR k))%R with (INR (h * N)) by (field; lra). exact HR.
      - apply (Rmult_le_compat_l (INR k)) in E1, E2; try lra. rewrite Rmult_minus_distr_l in E1. rewrite Rmult_plus_distr_l in E2.
        replace (INR k * (INR (h * N) / INR k))%R with (INR (h * N)) in * by (field; lra). lra.
    Qed.

    Theorem value_smallest bs : calc_buffer_size lg n k = Ret bs ->
      exists t, fval (fmul q (fofZ (Z.of_nat N))) = XFin t /\
        ((t < INR (bs / 2))%R -> (t < INR N)%R -> always (fun x => In x items /\ (INR (n_lt items x) <= t < INR (n_le items x))%R) (value_after lg n k ops q)).
    Proof using FL Hp Hm He Hf Hne Hi Hq Hr.
      intros Hc. destruct rank_sought as (t & Ht & H01). exists t. split; [exact Ht|]. intros L1 L2. apply value_from_state.
      pose proof (@size_val F FO FL lg n k bs (proj1 Hp) Hc) as Eb. 
      assert (always (fun s => guard k (bs / 2) (rc_levels s) items) (rc_run lg n k ops)) as HG.
      { pose proof (@rc_run_always F FO FL lg n k ops Hp (default_mode_method Hm)) as HA. eapply always_mono; [eapply always_whenever_and; [exact HA|]|intros s [_ H]; exact H].
        rewrite rc_run_val by apply Hp. rewrite Eb. destruct Hp as ((Hk & _) & Hrr & _). apply rc_guard; [exact Hk| |now apply default_mode_method]. unfold in_range in Hrr. tauto. }
      eapply always_mono; [apply always_and; [exact HG|apply (@even_always F FO FL lg n k ops Hp (default_mode_method Hm) He Hf)]|]. cbn beta. intros s [G Hs].
      destruct (@even_state_value F FO FL _ s q Hs Hne Hi) as (x & X1 & X2 & X3). exists x. split; [exact X1|]. split; [exact X2|].
      rewrite Ht in X3. destruct Hs as (_ & S2 & _ & S4 & S5). apply (@value_exact k (bs / 2) (rc_levels s) items t x); auto; [apply Hp|lra].
    Qed.

    Theorem value_relative bs : calc_buffer_size lg n k = Ret bs ->
      exists t, fval (fmul q (fofZ (Z.of_nat N))) = XFin t /\
        always (fun x => In x items /\ forall h, n_le items x * (k + 1) ^ h <= bs / 2 * (2 * k) ^ h ->
                  (INR (n_lt items x) * (2 - (1 + / INR k) ^ h) <= t <= INR (n_le items x) * (1 + / INR k) ^ h)%R) (value_after lg n k ops q).
    Proof using FL Hp Hm He Hf Hne Hi Hq Hr.
      intros Hc. destruct rank_sought as (t & Ht & H01). exists t. split; [exact Ht|]. apply value_from_state.
      assert (0 < INR k)%R as Hk by (apply lt_0_INR; destruct Hp as ((? & _) & _); lia).
      assert (always (fun s => forall vh : F * nat, n_le items (fst vh) * (k + 1) ^ snd vh <= bs / 2 * (2 * k) ^ snd vh ->
                (Rabs (INR (lv_rank (rc_levels s) (fst vh)) - INR (n_le items (fst vh))) <= INR (n_le items (fst vh)) * ((1 + / INR k) ^ snd vh - 1))%R) (rc_run lg n k ops)) as HA.
      { apply always_forall; [constructor; exact (q, 0)|]. intros [v h]. cbn [fst snd].
        destruct (le_dec (n_le items v * (k + 1) ^ h) (bs / 2 * (2 * k) ^ h)) as [L|L].
        - pose proof (@rank_relative F FO FL lg n k ops v bs h Hp Hm few_31_64 Hc L) as HR.
          apply (@rank_state v (fun z => (Z.of_nat k ^ Z.of_nat h * Z.abs (z - Z.of_nat (n_le items v)) <= Z.of_nat (n_le items v) * ((Z.of_nat k + 1) ^ Z.of_nat h - Z.of_nat k ^ Z.of_nat h))%Z)) in HR.
          eapply always_mono; [exact HR|]. cbn beta. intros s H _. apply IZR_le in H.
          rewrite !mult_IZR, abs_IZR, !minus_IZR, <- !pow_IZR, plus_IZR, <- !INR_IZR_INZ in H.
          assert (0 < INR k ^ h)%R as Hkh by (apply pow_lt; exact Hk).
          apply Rmult_le_reg_l with (INR k ^ h)%R; [exact Hkh|]. eapply Rle_trans; [exact H|]. right.
          replace (INR k + 1)%R with (INR k * (1 + / INR k))%R by (field; lra). rewrite Rpow_mult_distr. ring.
        - eapply always_mono; [apply (@rc_run_always F FO FL lg n k ops Hp (default_mode_method Hm))|]. cbn beta. intros s _ L'. contradiction. }
      eapply always_mono; [apply always_and; [exact HA|apply (run_cuts Ht H01)]|]. cbn beta. intros s [HR (x & X1 & X2 & [C1 C2])]. exists x. split; [exact X1|]. split; [exact X2|].
      intros h Hh. assert (fisnan x = false) as Hxn by (destruct Hp as (_ & _ & Hn); unfold no_nan in Hn; rewrite Forall_forall in Hn; now apply Hn). split.
      - destruct (Nat.eq_dec (n_lt items x) 0) as [E0|E0]; [rewrite E0; cbn; lra|]. destruct (@pred_item items x ltac:(apply Hp) ltac:(lia)) as (v & V1 & V2 & V3).
        specialize (C2 v V2). specialize (HR (v, h)). cbn [fst snd] in HR. rewrite V3 in HR.
        assert (n_lt items x <= n_le items x) as HL by (rewrite n_le_lt_eq; lia).
        assert (n_lt items x * (k + 1) ^ h <= bs / 2 * (2 * k) ^ h) as HH by (eapply Nat.le_trans; [apply Nat.mul_le_mono_r; exact HL|exact Hh]).
        specialize (HR HH). apply Rabs_le_inv in HR. lra.
      - specialize (C1 x (fle_refl _ Hxn)). specialize (HR (x, h) Hh). cbn [fst snd] in HR. apply Rabs_le_inv in HR. lra.
    Qed.

    (** probability of an answer off by [d] *)
    Lemma prob_state v d (p : F -> bool) t bs : calc_buffer_size lg n k = Ret bs -> (0 <= d)%R -> fval (fmul q (fofZ (Z.of_nat N))) = XFin t -> (0 <= t <= INR N)%R ->
      (forall (lv : list level) x, In x items -> cuts lv t x -> p x = true -> (d <= Rabs (INR (lv_rank lv v) - INR (n_le items v)))%R) ->
      (d ^ 2 * (INR k * INR bs) * prob p (value_after lg n k ops q) <= 2 * INR N ^ 2)%R.
    Proof using FL Hp Hm He Hf Hne Hi Hq Hr.
      intros Hc Hd Ht H01 Hcut. eapply Rle_trans; [|eapply rank_variance_total with (v := v); eauto using few_31_64].
      rewrite (Rmult_comm (d ^ 2)), Rmult_assoc. apply Rmult_le_compat_l; [apply Rmult_le_pos; apply pos_INR|].
      rewrite (@rank_after_expect F FO FL lg n k ops v _ Hp (default_mode_method Hm) few_31_64), <- (@rc_run_val F FO FL lg n k ops) by apply Hp.
      unfold prob, value_after. rewrite expect_bind, <- expect_scal. eapply expect_le_always; [apply (run_cuts Ht H01)|]. cbn beta. intros s (x & -> & X2 & X3). cbn [expect].
      rewrite <- INR_IZR_INZ. destruct (p x) eqn:Ep.
      - specialize (Hcut _ _ X2 X3 Ep). rewrite Rmult_1_r, <- (pow2_abs (INR (lv_rank (rc_levels s) v) - INR (n_le items v))). apply pow_incr. lra.
      - rewrite Rmult_0_r. apply pow2_ge_0.
    Qed.
    Lemma prob_none (p : F -> bool) bs t : calc_buffer_size lg n k = Ret bs -> fval (fmul q (fofZ (Z.of_nat N))) = XFin t -> (0 <= t <= INR N)%R ->
      (forall x, In x items -> p x = false) -> prob p (value_after lg n k ops q) = 0%R.
    Proof using FL Hp Hm He Hf Hne Hi.
      intros Hc Ht H01 H. unfold prob. transitivity (expect (fun _ => 0%R) (value_after lg n k ops q)); [|apply expect_const].
      - apply expect_ext_always with (P := fun x => In x items); [apply value_from_state; eapply always_mono; [apply (run_cuts Ht H01)|]; intros s (x & X1 & X2 & _); exists x; split; [exact X1|exact X2]|].
        cbn beta. intros x Hx. now rewrite (H x Hx).
      - apply value_from_state. eapply always_mono; [apply (run_cuts Ht H01)|]. intros s (x & X1 & _). eauto.
    Qed.
    Theorem value_tail_low bs d : calc_buffer_size lg n k = Ret bs -> (0 <= d)%R ->
      exists t, fval (fmul q (fofZ (Z.of_nat N))) = XFin t /\
        (d ^ 2 * (INR k * INR bs) * prob (fun x => rleb (INR (n_le items x) + d) t) (value_after lg n k ops q) <= 2 * INR N ^ 2)%R.
    Proof using FL Hp Hm He Hf Hne Hi Hq Hr.
      intros Hc Hd. destruct rank_sought as (t & Ht & H01). exists t. split; [exact Ht|].
      destruct (existsb (fun x => rleb (INR (n_le items x) + d) t) items) eqn:E.
      - destruct (argmax _ (proj2 (proj2 Hp)) E) as (v & V1 & V2 & V3). apply (@prob_state v d _ t bs Hc Hd Ht H01). intros lv x Hx [C1 _] Hpx.
        specialize (C1 v (V3 x Hx Hpx)). apply rleb_true in V2. rewrite Rabs_right; lra.
      - rewrite (@prob_none _ bs t Hc Ht H01); [rewrite Rmult_0_r; pose proof (pow2_ge_0 (INR N)); lra|]. intros x Hx. destruct (rleb _ _) eqn:Ex; auto.
        assert (existsb (fun x => rleb (INR (n_le items x) + d) t) items = true) by (apply existsb_exists; eauto). congruence.
    Qed.
    Theorem value_tail_high bs d : calc_buffer_size lg n k = Ret bs -> (0 < d)%R ->
      exists t, fval (fmul q (fofZ (Z.of_nat N))) = XFin t /\
        (d ^ 2 * (INR k * INR bs) * prob (fun x => rleb (t + d) (INR (n_lt items x))) (value_after lg n k ops q) <= 2 * INR N ^ 2)%R.
    Proof using FL Hp Hm He Hf Hne Hi Hq Hr.
      intros Hc Hd. destruct rank_sought as (t & Ht & H01). exists t. split; [exact Ht|].
      assert (forall x, rleb (t + d) (INR (n_lt items x)) = true -> exists v, In v items /\ flt v x = true /\ rleb (t + d) (INR (n_le items v)) = true) as Hpred.
      { intros x Hx. pose proof (proj1 (rleb_true _ _) Hx) as Hx'. destruct (Nat.eq_dec (n_lt items x) 0) as [E0|E0]; [rewrite E0 in Hx'; cbn in Hx'; lra|].
        destruct (@pred_item items x (proj2 (proj2 Hp)) ltac:(lia)) as (v & V1 & V2 & V3). exists v. rewrite V3. auto. }
      destruct (existsb (fun x => rleb (t + d) (INR (n_le items x))) items) eqn:E.
      - destruct (argmin _ (proj2 (proj2 Hp)) E) as (v & V1 & V2 & V3). apply (@prob_state v d _ t bs Hc (Rlt_le _ _ Hd) Ht H01). intros lv x Hx [_ C2] Hpx.
        destruct (Hpred x Hpx) as (w & W1 & W2 & W3). specialize (C2 v (fle_flt_trans _ _ _ (V3 w W1 W3) W2)). apply rleb_true in V2. rewrite Rabs_left1; lra.
      - rewrite (@prob_none _ bs t Hc Ht H01); [rewrite Rmult_0_r; pose proof (pow2_ge_0 (INR N)); lra|]. intros x Hx. destruct (rleb _ _) eqn:Ex; auto.
        destruct (Hpred x Ex) as (w & W1 & W2 & W3). assert (existsb (fun x => rleb (t + d) (INR (n_le items x))) items = true) by (apply existsb_exists; eauto). congruence.
    Qed.
  End Runs.
End RCV.
