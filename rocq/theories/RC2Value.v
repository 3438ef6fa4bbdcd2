(** Accuracy of the value queries of RCSketch2. *)
From Coq Require Import List Arith ZArith NArith Lia Bool Permutation Sorted Reals Lra Psatz.
From Flocq Require Import Core.
From Verif Require Import Base Floats XReal IEEE Digest Spec FloatFacts History TDigest RCSketch RCProofs RCHist RCRank RCExpect RCTop RCQuery RCObs RCObs2 RCValue RC2 RC2Sections RC2Proofs RC2Hist RC2Rank RC2Top.
Set Implicit Arguments.
Local Open Scope nat_scope.

(** the rank error of C57: N o ((1 + 1/o)^(h+1) - 1) / min_sec *)
Definition err2 (k : N) (o h n : nat) : R := (INR o * ((1 + / INR o) ^ (h + 1) - 1) * INR n / INR (min_sec k))%R.

Section RC2V.
  Context {F : Type} {FO : FloatOps F} {FL : FloatLaws F}.
  Variables (extra : nat) (k : N) (ops : list (rop F)) (q : F) (r : R) (o h : nat).
  Hypothesis Hp : proper2 k ops.
  Hypothesis Hm : default_mode ops.
  Hypothesis Hn : no_nan (ritems_of ops).
  Hypothesis Hf : fewer k (length (ritems_of ops)).
  Hypothesis Hne : ritems_of ops <> [].
  Hypothesis Ho1 : Nat.odd o = true.
  Hypothesis Ho2 : o <= min_sec k + 1.
  Hypothesis Hh : (o + 1) ^ h * length (ritems_of ops) < 6 * N.to_nat k * (2 * o) ^ h.
  Hypothesis Hi : (INR (length (ritems_of ops)) + err2 k o h (length (ritems_of ops)) <= IZR fint)%R.
  Hypothesis Hq : fval q = XFin r.
  Hypothesis Hr : (0 <= r <= 1)%R.
  Notation items := (ritems_of ops).
  Notation N := (length (ritems_of ops)).
  Notation E := (err2 k o h (length (ritems_of ops))).

  Lemma min_sec_pos : (0 < INR (min_sec k))%R.
  Proof using Hp.
    apply lt_0_INR. exact (min_sec_ge (proj1 Hp)).
  Qed.
  Lemma o_pos : (1 <= INR o)%R.
  Proof using Ho1. apply (le_INR 1). clear -Ho1. destruct o; [discriminate|lia]. Qed.
  Lemma err2_pos : (0 <= E)%R.
  Proof using Hp Ho1.
    pose proof min_sec_pos as H1. pose proof o_pos as H2. unfold err2. unfold Rdiv. apply Rmult_le_pos; [|apply Rlt_le, Rinv_0_lt_compat, H1].
    apply Rmult_le_pos; [|apply pos_INR]. apply Rmult_le_pos; [lra|].
    assert (0 <= / INR o)%R by (apply Rlt_le, Rinv_0_lt_compat; lra). pose proof (pow_R1_Rle (1 + / INR o) (h + 1) ltac:(lra)). lra.
  Qed.
  Lemma few_fewer : few2 k ops.
  Proof using Hf.
    left. destruct Hf as [H|[H1 H]]; [left|right; split; [exact H1|]]; (eapply N.le_trans; [exact H|apply N.mul_le_mono_l; vm_compute; discriminate]).
  Qed.

  Lemma rank2_err (lo : Z) v : (Z.of_nat (min_sec k) * Z.abs (lo - Z.of_nat (n_le items v)) * Z.of_nat o ^ Z.of_nat (h + 1)
                      <= Z.of_nat o * (Z.of_nat (o + 1) ^ Z.of_nat (h + 1) - Z.of_nat o ^ Z.of_nat (h + 1)) * Z.of_nat N)%Z ->
    (Rabs (IZR lo - INR (n_le items v)) <= E)%R.
  Proof using Hp Ho1.
    intros H. pose proof min_sec_pos as H1. pose proof o_pos as H2. apply IZR_le in H.
    rewrite !mult_IZR, minus_IZR, <- !pow_IZR, abs_IZR, minus_IZR, <- !INR_IZR_INZ in H. rewrite plus_INR in H. cbn [INR] in H.
    assert (0 < INR o ^ (h + 1))%R as H3 by (apply pow_lt; lra).
    apply Rmult_le_reg_r with (INR (min_sec k) * INR o ^ (h + 1))%R; [now apply Rmult_lt_0_compat|].
    unfold err2. replace (INR o + 1)%R with (INR o * (1 + / INR o))%R in H by (field; lra). rewrite Rpow_mult_distr in H.
    match goal with |- (_ <= ?b)%R => replace b with (INR o * (INR o ^ (h + 1) * (1 + / INR o) ^ (h + 1) - INR o ^ (h + 1)) * INR N)%R by (field; lra) end.
    eapply Rle_trans; [|exact H]. right. ring.
  Qed.

  (** what a value query finds *)
  Lemma value2_state : exists t, fval (fmul q (fofZ (Z.of_nat N))) = XFin t /\ (0 <= t <= INR N)%R /\
    always (fun s => guard 0 (3 * N.to_nat k) (plain (r2_levels s)) items /\ no_nan (held_items s) /\ (forall y, In y (held_items s) -> In y items) /\
                     (forall v, (Rabs (INR (rank2 (r2_levels s) v) - INR (n_le items v)) <= E)%R) /\
                     exists x, rc2_est_value s q = Ret x /\ In x items /\ value_spec (plain (r2_levels s)) (XFin t) x) (rc2_run extra k ops).
  Proof using FL Hp Hm Hn Hf Hne Ho1 Ho2 Hh Hi Hq Hr.
    pose proof (proj1 Hp) as Hk. pose proof (default_mode_method Hm) as Hm'. pose proof err2_pos as HE.
    assert (Z.of_nat N <= fint)%Z as HiN by (apply le_IZR; rewrite <- INR_IZR_INZ; lra).
    destruct (@rank_sought F FO FL ops q r HiN Hq Hr) as (t & Ht & H01). exists t. split; [exact Ht|]. split; [exact H01|].
    assert (always (fun s => forall v, (Rabs (INR (rank2 (r2_levels s) v) - INR (n_le items v)) <= E)%R) (rc2_run extra k ops)) as HR.
    { apply always_forall; [constructor; exact q|]. intros v.
      pose proof (@rank2_error F FO FL extra k ops v o h Hp few_fewer Hm Hn Ho1 Ho2 Hh) as H.
      unfold rank_after2 in H. rewrite always_bind_iff in H.
      eapply always_mono; [apply always_and; [exact H|apply (@levels64 F FO FL extra k ops (fun x => fisnan x = false)); auto using few_fewer, default_keeps]|].
      cbn beta. intros s [H1 H2]. unfold interpolate_rank2 in H1. rewrite interpolate_rank_val in H1 by (unfold as_rc; cbn [rc_levels]; now rewrite map_length).
      cbn [always] in H1. apply rank2_err in H1. rewrite <- INR_IZR_INZ in H1. exact H1. }
    eapply always_mono.
    - apply always_and; [apply HR|]. apply always_and; [apply (@guard2 F FO FL extra k ops Hk Hp Hm' Hn)|].
      apply (@rc2_state F FO FL extra k ops (odd_for k) (fun x => fisnan x = false /\ In x items) Hp (odd3 Hk)).
      + apply default_keeps; auto. tauto.
      + apply Forall_forall. intros x Hx. unfold no_nan in Hn. rewrite Forall_forall in Hn. auto.
    - cbn beta. intros s (HR' & HG & (_ & _ & Ha & HF & _) & Hc). cbn [fst snd] in *. apply all_in_items in Ha.
      assert (no_nan (held_items s)) as Hnn by (unfold no_nan; eapply Forall_impl; [|exact Ha]; cbn beta; tauto).
      rewrite Forall_forall in Ha.
      assert (forall y, In y (held_items s) -> In y items) as Hsub by (intros y Hy; now apply Ha).
      split; [exact HG|]. split; [exact Hnn|]. split; [exact Hsub|]. split; [exact HR'|].
      destruct (@rc_est_value_val F FO FL (as_rc s) q) as (x & X1 & X2).
      + unfold as_rc. cbn [rc_levels]. rewrite map_length. eapply short_31; eauto.
      + apply le_IZR. rewrite <- INR_IZR_INZ. eapply Rle_trans; [|exact Hi].
        destruct (@argmax F FO FL items (fun _ => true) Hn) as (m & M1 & _ & M3).
        { destruct items as [|y l]; [congruence|reflexivity]. }
        specialize (HR' m). unfold rank2 in HR'. assert (n_le items m = N) as E1 by (apply all_le_rank; intros y Hy; now apply M3).
        assert (lv_rank (plain (r2_levels s)) m = lv_weight (plain (r2_levels s))) as E2
          by (apply lv_rank_all, all_in_items, Forall_forall; intros y Hy; apply M3; auto).
        rewrite E1, E2 in HR'. apply Rabs_le_inv in HR'. unfold as_rc, plain in *. cbn [rc_levels]. lra.
      + exact Hnn.
      + unfold as_rc. cbn [rc_levels]. eapply guard_nonempty; [|exact HG|exact Hne]. destruct Hk. lia.
      + exists x. split; [exact X1|]. unfold as_rc in X2. cbn [rc_levels rc_count] in X2. rewrite Hc, Ht in X2. split; [|exact X2]. apply Hsub. apply X2.
  Qed.

  Theorem value2_error : exists t, fval (fmul q (fofZ (Z.of_nat N))) = XFin t /\
    always (fun x => In x items /\ (INR (n_lt items x) - E <= t <= INR (n_le items x) + 2 * E)%R /\
                     ((t <= INR N - E)%R -> (t <= INR (n_le items x) + E)%R)) (value_after2 extra k ops q).
  Proof using FL Hp Hm Hn Hf Hne Ho1 Ho2 Hh Hi Hq Hr.
    destruct value2_state as (t & Ht & H01 & HS). exists t. split; [exact Ht|]. unfold value_after2. rewrite always_bind_iff.
    eapply always_mono; [exact HS|]. cbn beta. intros s (_ & H1 & H2 & H3 & x & -> & X1 & X2). cbn [always]. split; [exact X1|].
    apply (@value_error_any F FO FL (plain (r2_levels s)) items t x E); auto. apply err2_pos.
  Qed.

  Theorem value2_smallest : exists t, fval (fmul q (fofZ (Z.of_nat N))) = XFin t /\
    ((t < INR (3 * N.to_nat k))%R -> (t < INR N)%R -> always (fun x => In x items /\ (INR (n_lt items x) <= t < INR (n_le items x))%R) (value_after2 extra k ops q)).
  Proof using FL Hp Hm Hn Hf Hne Ho1 Ho2 Hh Hi Hq Hr.
    destruct value2_state as (t & Ht & H01 & HS). exists t. split; [exact Ht|]. intros L1 L2. unfold value_after2. rewrite always_bind_iff.
    eapply always_mono; [exact HS|]. cbn beta. intros s (HG & H1 & H2 & H3 & x & -> & X1 & X2). cbn [always]. split; [exact X1|].
    apply (@value_exact F FO FL 0 (3 * N.to_nat k) (plain (r2_levels s)) items t x); auto. lra.
  Qed.

  (** probability of an answer off by [d] *)
  Notation V := (expect (fun s => INR (lv_compactions2 (plain (r2_levels s)))) (rc2_run extra k ops)).
  Lemma V_rank v : (expect (fun s => (INR (rank2 (r2_levels s) v) - INR (n_le items v)) ^ 2) (rc2_run extra k ops) <= V)%R.
  Proof using FL Hp Hm Hn Hf.
    eapply Rle_trans; [|apply (@rank2_variance F FO FL extra k ops v Hp few_fewer Hm Hn)].
    rewrite (@rank_after2_expect F FO FL extra k ops v _ Hp few_fewer (default_mode_method Hm) Hn). right.
    apply expect_ext_always with (P := fun _ => True); [apply run2_true; auto using default_mode_method|]. intros s _. now rewrite <- INR_IZR_INZ.
  Qed.
  Lemma V_pos : (0 <= V)%R.
  Proof using FL Hp Hm Hn Hf q.
    eapply Rle_trans; [|apply (V_rank q)]. apply Rle_trans with (expect (fun _ : rc2 F => 0%R) (rc2_run extra k ops)).
    - right. symmetry. apply expect_const. eapply always_mono; [apply run2_true; auto using default_mode_method|auto].
    - eapply expect_le_always; [apply run2_true; auto using default_mode_method|]. intros s _. apply pow2_ge_0.
  Qed.
  Theorem value2_tail_high d : (0 < d)%R -> exists t, fval (fmul q (fofZ (Z.of_nat N))) = XFin t /\
    (d ^ 2 * prob (fun x => rleb (t + d) (INR (n_lt items x))) (value_after2 extra k ops q) <= V)%R.
  Proof using FL Hp Hm Hn Hf Hne Ho1 Ho2 Hh Hi Hq Hr.
    intros Hd. destruct value2_state as (t & Ht & H01 & HS). exists t. split; [exact Ht|].
    assert (forall x, rleb (t + d) (INR (n_lt items x)) = true -> exists v, In v items /\ flt v x = true /\ rleb (t + d) (INR (n_le items v)) = true) as Hpred.
    { intros x Hx. pose proof (proj1 (rleb_true _ _) Hx) as Hx'. destruct (Nat.eq_dec (n_lt items x) 0) as [E0|E0]; [rewrite E0 in Hx'; cbn in Hx'; lra|].
      destruct (@pred_item F FO FL items x Hn ltac:(lia)) as (v & V1 & V2 & V3). exists v. rewrite V3. auto. }
    unfold prob, value_after2. rewrite expect_bind, <- expect_scal.
    destruct (existsb (fun x => rleb (t + d) (INR (n_le items x))) items) eqn:Ex.
    - destruct (argmin _ Hn Ex) as (v & V1 & V2 & V3). eapply Rle_trans; [|apply (V_rank v)].
      eapply expect_le_always; [exact HS|]. cbn beta. intros s (_ & H1 & H2 & _ & x & -> & X1 & X2). cbn [expect].
      destruct (rleb (t + d) (INR (n_lt items x))) eqn:Ep; [|rewrite Rmult_0_r; apply pow2_ge_0]. rewrite Rmult_1_r.
      destruct (Hpred x Ep) as (w & W1 & W2 & W3).
      pose proof (@value_below F FO FL (plain (r2_levels s)) t x v H1 X2 (proj1 H01) (fle_flt_trans _ _ _ (V3 w W1 W3) W2)) as C.
      apply rleb_true in V2. fold (rank2 (r2_levels s) v) in C. nra.
    - eapply Rle_trans; [|apply V_pos]. apply Rle_trans with (expect (fun _ : rc2 F => 0%R) (rc2_run extra k ops)).
      + eapply expect_le_always; [exact HS|]. cbn beta. intros s (_ & _ & _ & _ & x & -> & X1 & X2). cbn [expect].
        destruct (rleb (t + d) (INR (n_lt items x))) eqn:Ep; [|lra]. destruct (Hpred x Ep) as (w & W1 & W2 & W3).
        assert (existsb (fun x => rleb (t + d) (INR (n_le items x))) items = true) by (apply existsb_exists; eauto). congruence.
      + right. apply expect_const. eapply always_mono; [apply run2_true; auto using default_mode_method|auto].
  Qed.
  Theorem value2_tail_low d : (0 <= d)%R -> exists t, fval (fmul q (fofZ (Z.of_nat N))) = XFin t /\
    (d ^ 2 * prob (fun x => rleb (INR (n_le items x) + d) t) (value_after2 extra k ops q) <= 4 * V)%R.
  Proof using FL Hp Hm Hn Hf Hne Ho1 Ho2 Hh Hi Hq Hr.
    intros Hd. destruct value2_state as (t & Ht & H01 & HS). exists t. split; [exact Ht|]. pose proof V_pos as HV.
    unfold prob, value_after2. rewrite expect_bind, <- expect_scal.
    destruct (existsb (fun x => rleb (INR (n_le items x) + d) t) items) eqn:Ex.
    - destruct (argmax _ Hn Ex) as (v & V1 & V2 & V3).
      destruct (@argmax F FO FL items (fun _ => true) Hn) as (m & M1 & _ & M3); [apply existsb_exists; eauto|].
      assert (n_le items m = N) as Em by (apply all_le_rank; intros y Hy; now apply M3).
      pose proof (V_rank v) as Av. pose proof (V_rank m) as Am. rewrite Em in Am.
      eapply Rle_trans with (2 * (expect (fun s => (INR (rank2 (r2_levels s) v) - INR (n_le items v)) ^ 2) (rc2_run extra k ops)
        + expect (fun s => (INR (rank2 (r2_levels s) m) - INR N) ^ 2) (rc2_run extra k ops)))%R; [|lra].
      rewrite <- expect_plus, <- expect_scal.
      eapply expect_le_always; [exact HS|]. cbn beta. intros s (_ & H1 & H2 & _ & x & -> & X1 & X2). cbn [expect].
      assert (rank2 (r2_levels s) m = lv_weight (plain (r2_levels s))) as E2
        by (apply lv_rank_all, all_in_items, Forall_forall; intros y Hy; apply M3; auto).
      set (a := (INR (rank2 (r2_levels s) v) - INR (n_le items v))%R). set (b := (INR (rank2 (r2_levels s) m) - INR N)%R).
      pose proof (pow2_ge_0 a) as Pa. pose proof (pow2_ge_0 b) as Pb.
      destruct (rleb (INR (n_le items x) + d) t) eqn:Ep; [|rewrite Rmult_0_r; lra]. rewrite Rmult_1_r.
      pose proof (@value_above F FO FL (plain (r2_levels s)) t x v X2 (V3 x X1 Ep)) as C. apply rleb_true in V2.
      fold (rank2 (r2_levels s) v) in C. unfold Rmin in C. destruct (Rle_dec t _) as [L|L].
      + assert (d <= a)%R by (unfold a; lra). nra.
      + rewrite <- E2 in *. assert (d <= a - b)%R by (unfold a, b; lra).
        assert (0 <= (a + b) ^ 2)%R by apply pow2_ge_0. nra.
    - eapply Rle_trans with 0%R; [|lra]. apply Rle_trans with (expect (fun _ : rc2 F => 0%R) (rc2_run extra k ops)).
      + eapply expect_le_always; [exact HS|]. cbn beta. intros s (_ & _ & _ & _ & x & -> & X1 & X2). cbn [expect].
        destruct (rleb (INR (n_le items x) + d) t) eqn:Ep; [|lra].
        assert (existsb (fun x => rleb (INR (n_le items x) + d) t) items = true) by (apply existsb_exists; eauto). congruence.
      + right. apply expect_const. eapply always_mono; [apply run2_true; auto using default_mode_method|auto].
  Qed.
End RC2V.
