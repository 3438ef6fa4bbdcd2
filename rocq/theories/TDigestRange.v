(** The quantile answers of the t-digest in rounded arithmetic: always between 0 and 1. *)
From Coq Require Import List Arith ZArith Lia Bool Permutation Sorted Reals Lra.
From Flocq Require Import Core Relative BinarySingleNaN.
From Verif Require Import Base Floats XReal IEEE Digest TDigest Spec FloatFacts History TDigestProofs TDigestProofs2 TDigestTop.
Set Implicit Arguments.

Local Open Scope R_scope.

(** The one step of the interpolation where monotone rounding is not enough: d * x / y for x <= y may be rounded above d, but
    by at most one half. *)
Definition mild_rounding {F} {FO : FloatOps F} {FL : FloatLaws F} (B : R) (N : Z) : Prop :=
  forall z x y, (0 <= z <= N)%Z -> 0 <= x <= y -> 0 < y <= 2 * B -> fexact x -> fexact y ->
  exists p t, frnd (IZR z / 2 * x) = XFin p /\ frnd (p / y) = XFin t /\ 0 <= t <= IZR z / 2 + 1 / 2.

Section Range.
  Context {F : Type} {FO : FloatOps F} {FL : FloatLaws F}.
  Notation cen := (centroid F).
  Variables (B : R) (N : Z).
  Hypothesis HB : forall k, (Z.abs k <= N)%Z -> fexact (IZR k * B).
  Hypothesis HB0 : 0 <= B.
  Hypothesis HN : (2 <= N)%Z /\ (2 * N <= fint)%Z /\ (N <= 2 ^ 53)%Z.
  Hypothesis HM : mild_rounding B N.

  (** a number in [0,1] *)
  Definition unit_val (a : F) : Prop := exists r, fval a = XFin r /\ 0 <= r <= 1.

  Lemma exact_int z : (Z.abs z <= N)%Z -> fexact (IZR z).
  Proof. intros H. apply fint_exact. lia. Qed.
  Lemma exact_half z : (Z.abs z <= 2 * N)%Z -> fexact (IZR z / 2).
  Proof. intros H. apply fhalf_exact. lia. Qed.

  Lemma sub_bnd x y a b : fval x = XFin a -> fval y = XFin b -> b <= a -> Rabs a <= B -> Rabs b <= B ->
    exists r, fval (fsub x y) = XFin r /\ frnd (a - b) = XFin r /\ 0 <= r <= 2 * B /\ fexact r.
  Proof.
    intros Hx Hy Hab Ha Hb. apply Rabs_le_inv in Ha. apply Rabs_le_inv in Hb.
    destruct (@frnd_range F FO FL 0 (IZR 2 * B) (a - b)) as (r & Hr & Hr1).
    { apply fexact_0. } { apply HB. lia. } { lra. }
    exists r. rewrite (fsub_fin Hx Hy). repeat split; auto; try lra. eapply fval_exact. rewrite (fsub_fin Hx Hy). exact Hr.
  Qed.

  Section Total.
    Variables (total : F) (n : Z).
    Hypothesis Hn : (1 <= n <= N)%Z.
    Hypothesis Ht : fval total = XFin (IZR n).

    Lemma n_pos : 1 <= IZR n.
    Proof. apply IZR_le. lia. Qed.

    Lemma div_unit x r : fval x = XFin r -> 0 <= r <= IZR n -> unit_val (fdiv x total).
    Proof.
      intros Hx Hr. pose proof n_pos. unfold unit_val. rewrite (fdiv_fin Hx Ht) by lra.
      apply frnd_range; [apply fexact_0|apply fexact_1|]. split.
      - apply Rmult_le_reg_r with (IZR n); [lra|]. unfold Rdiv. rewrite Rmult_assoc, Rinv_l by lra. lra.
      - apply Rmult_le_reg_r with (IZR n); [lra|]. unfold Rdiv. rewrite Rmult_assoc, Rinv_l by lra. lra.
    Qed.

    Lemma one_minus a : unit_val a -> unit_val (fsub f1 a).
    Proof.
      intros (r & Hr & Hr1). unfold unit_val. rewrite (fsub_fin (fval_f1 (F:=F)) Hr).
      apply frnd_range; [apply fexact_0|apply fexact_1|]. lra.
    Qed.

    (** the answers beyond the outermost means: 1 + (a/b)(w/2 - 1) *)
    Lemma end_unit a b w ra rb z : fval a = XFin ra -> fval b = XFin rb -> 0 <= ra <= rb -> 0 < rb ->
      fval w = XFin (IZR z) -> (1 <= z <= n)%Z ->
      unit_val (fdiv (fadd f1 (fmul (fdiv a b) (fsub (fdiv w f2) f1))) total).
    Proof.
      intros Ha Hb Hab Hb0 Hw Hz.
      assert (fval (fdiv w f2) = XFin (IZR z / 2)) as Hw2.
      { apply half_val; auto. lia. }
      assert (fval (fsub (fdiv w f2) f1) = XFin (IZR (z - 2) / 2)) as Hw3.
      { rewrite (fsub_fin Hw2 (fval_f1 (F:=F))). rewrite minus_IZR.
        replace (IZR z / 2 - 1) with (IZR (z - 2) / 2) by (rewrite minus_IZR; lra).
        rewrite <- minus_IZR. apply frnd_exact, exact_half. lia. }
      destruct (@frnd_range F FO FL 0 1 (ra / rb)) as (q & Hq & Hq1); [apply fexact_0|apply fexact_1| |].
      { split.
        - apply Rmult_le_reg_r with rb; [lra|]. unfold Rdiv. rewrite Rmult_assoc, Rinv_l by lra. lra.
        - apply Rmult_le_reg_r with rb; [lra|]. unfold Rdiv. rewrite Rmult_assoc, Rinv_l by lra. lra. }
      assert (fval (fdiv a b) = XFin q) as Hab' by (rewrite (fdiv_fin Ha Hb) by lra; exact Hq).
      set (m := Z.max 0 (z - 2)).
      assert (IZR (z - 2) <= IZR m) as Hm1 by (apply IZR_le; unfold m; lia).
      assert (0 <= IZR m) as Hm0 by (apply IZR_le; unfold m; lia).
      assert (-1 <= IZR (z - 2)) as Hz2 by (apply IZR_le; lia).
      destruct (@frnd_range F FO FL (IZR (-1) / 2) (IZR m / 2) (q * (IZR (z - 2) / 2))) as (p & Hp & Hp1).
      { apply exact_half. lia. } { apply exact_half. unfold m. lia. } { nra. }
      assert (fval (fmul (fdiv a b) (fsub (fdiv w f2) f1)) = XFin p) as Hmul by (rewrite (fmul_fin Hab' Hw3); exact Hp).
      destruct (@frnd_range F FO FL (IZR 1 / 2) (IZR (m + 2) / 2) (1 + p)) as (s & Hs & Hs1).
      { apply exact_half. lia. } { apply exact_half. unfold m. lia. } { rewrite plus_IZR. lra. }
      apply div_unit with s.
      - rewrite (fadd_fin (fval_f1 (F:=F)) Hmul). exact Hs.
      - split; [lra|]. apply Rle_trans with (1 := proj2 Hs1).
        assert (IZR (m + 2) <= IZR (n + n)) as HH; [|rewrite plus_IZR with (n := n) in HH; lra]. apply IZR_le. unfold m. lia.
    Qed.

    (** between two neighbours *)
    Lemma interp_unit item wsf (c d : cen) v mc md p zc zd :
      fval item = XFin v -> fval (mean c) = XFin mc -> fval (mean d) = XFin md -> mc <= v < md ->
      Rabs mc <= B -> Rabs md <= B ->
      fval wsf = XFin (IZR p) -> fval (weight c) = XFin (IZR zc) -> fval (weight d) = XFin (IZR zd) ->
      (0 <= p)%Z -> (1 <= zc)%Z -> (1 <= zd)%Z -> (p + zc + zd <= n)%Z ->
      unit_val (interp_q item total wsf c d).
    Proof.
      intros Hv Hc Hd Hmv Bc Bd Hp Hzc Hzd P0 P1 P2 P3. destruct HN as (N1 & N2 & N3).
      assert (fval (fadd (weight c) (weight d)) = XFin (IZR (zc + zd))) as Hw.
      { rewrite (fadd_fin Hzc Hzd), <- plus_IZR. apply frnd_exact, exact_int. lia. }
      assert (fval (fdiv (fadd (weight c) (weight d)) f2) = XFin (IZR (zc + zd) / 2)) as Hdw by (apply half_val; auto; lia).
      unfold interp_q.
      destruct (fgt (fsub (mean d) (mean c)) f0) eqn:Eg.
      2:{ eapply div_unit.
          - rewrite (fadd_fin Hp Hdw).
            replace (IZR p + IZR (zc + zd) / 2) with (IZR (2 * p + (zc + zd)) / 2) by (rewrite !plus_IZR, mult_IZR; lra).
            apply frnd_exact, exact_half. lia.
          - split; [assert (0 <= IZR (2 * p + (zc + zd))) by (apply IZR_le; lia); lra|].
            assert (IZR (2 * p + (zc + zd)) <= IZR (2 * n)) as HH by (apply IZR_le; lia). rewrite mult_IZR with (n := 2%Z) (m := n) in HH. lra. }
      destruct (feq (weight c) f1 && feq (weight d) f1) eqn:E1.
      { eapply div_unit.
        - rewrite (fadd_fin Hp (fval_f1 (F:=F))), <- plus_IZR. apply frnd_exact, exact_int. lia.
        - split; apply IZR_le; lia. }
      set (le := if feq (weight c) f1 then fhalf else f0).
      set (re := if feq (weight c) f1 then f0 else if feq (weight d) f1 then fhalf else f0).
      assert (exists l r, fval le = XFin (IZR l / 2) /\ fval re = XFin (IZR r / 2) /\ (0 <= l)%Z /\ (0 <= r)%Z /\ (l + r <= 1)%Z) as (l & r & Hl & Hr & L1 & L2 & L3).
      { unfold le, re. destruct (feq (weight c) f1); [|destruct (feq (weight d) f1)].
        - exists 1%Z, 0%Z. repeat split; try lia; [apply fval_fhalf|]. rewrite fval_f0. f_equal. lra.
        - exists 0%Z, 1%Z. repeat split; try lia; [|apply fval_fhalf]. rewrite fval_f0. f_equal. lra.
        - exists 0%Z, 0%Z. repeat split; try lia; rewrite fval_f0; f_equal; lra. }
      assert (fval (fsub (fdiv (fadd (weight c) (weight d)) f2) le) = XFin (IZR (zc + zd - l) / 2)) as S1.
      { rewrite (fsub_fin Hdw Hl). replace (IZR (zc + zd) / 2 - IZR l / 2) with (IZR (zc + zd - l) / 2) by (rewrite !minus_IZR, ?plus_IZR; lra).
        apply frnd_exact, exact_half. lia. }
      assert (fval (fsub (fsub (fdiv (fadd (weight c) (weight d)) f2) le) re) = XFin (IZR (zc + zd - l - r) / 2)) as S2.
      { rewrite (fsub_fin S1 Hr). replace (IZR (zc + zd - l) / 2 - IZR r / 2) with (IZR (zc + zd - l - r) / 2) by (rewrite !minus_IZR, ?plus_IZR; lra).
        apply frnd_exact, exact_half. lia. }
      assert (fval (fdiv (weight c) f2) = XFin (IZR zc / 2)) as S3 by (apply half_val; auto; lia).
      assert (fval (fadd wsf (fdiv (weight c) f2)) = XFin (IZR (2 * p + zc) / 2)) as S4.
      { rewrite (fadd_fin Hp S3). replace (IZR p + IZR zc / 2) with (IZR (2 * p + zc) / 2) by (rewrite plus_IZR, mult_IZR; lra).
        apply frnd_exact, exact_half. lia. }
      assert (fval (fadd (fadd wsf (fdiv (weight c) f2)) le) = XFin (IZR (2 * p + zc + l) / 2)) as S5.
      { rewrite (fadd_fin S4 Hl). replace (IZR (2 * p + zc) / 2 + IZR l / 2) with (IZR (2 * p + zc + l) / 2) by (rewrite !plus_IZR; lra).
        apply frnd_exact, exact_half. lia. }
      destruct (@sub_bnd item (mean c) v mc Hv Hc) as (x & X1 & X2 & X3 & X4); auto; [lra| |].
      { apply Rabs_le. apply Rabs_le_inv in Bc. apply Rabs_le_inv in Bd. lra. }
      destruct (@sub_bnd (mean d) (mean c) md mc Hd Hc) as (y & Y1 & Y2 & Y3 & Y4); auto; [lra|].
      assert (x <= y) as Hxy.
      { assert (xle (frnd (v - mc)) (frnd (md - mc))) as HH by (apply frnd_mono; lra). rewrite X2, Y2 in HH. apply xle_iff in HH. exact HH. }
      assert (0 < y) as Hy0.
      { rewrite fgt_flt in Eg. apply flt_iff in Eg. rewrite fval_f0, Y1 in Eg. apply xlt_iff in Eg. exact Eg. }
      destruct (@HM (zc + zd - l - r)%Z x y) as (pp & t & Q1 & Q2 & Q3); auto; try lra; try lia.
      assert (fval (fmul (fsub (fsub (fdiv (fadd (weight c) (weight d)) f2) le) re) (fsub item (mean c))) = XFin pp) as T1
        by (rewrite (fmul_fin S2 X1); exact Q1).
      assert (fval (fdiv (fmul (fsub (fsub (fdiv (fadd (weight c) (weight d)) f2) le) re) (fsub item (mean c))) (fsub (mean d) (mean c))) = XFin t) as T2
        by (rewrite (fdiv_fin T1 Y1) by lra; exact Q2).
      cbn zeta. fold le re.
      destruct (@frnd_range F FO FL 0 (IZR n) (IZR (2 * p + zc + l) / 2 + t)) as (s & Hs & Hs1).
      { apply fexact_0. } { apply exact_int. lia. }
      { assert (0 <= IZR (2 * p + zc + l)) by (apply IZR_le; lia).
        assert (IZR (2 * p + zc + l) / 2 + (IZR (zc + zd - l - r) / 2 + 1 / 2) = IZR (2 * p + zc + l + (zc + zd - l - r) + 1) / 2) as HE
          by (rewrite !plus_IZR; lra).
        assert (IZR (2 * p + zc + l + (zc + zd - l - r) + 1) <= IZR (2 * n)) as HH by (apply IZR_le; lia).
        rewrite mult_IZR with (n := 2%Z) (m := n) in HH. lra. }
      apply div_unit with s; auto. rewrite (fadd_fin S5 T2). exact Hs.
    Qed.

    Lemma run_weight_int item : forall cs zs acc a, wts cs zs -> fval acc = XFin (IZR a) -> (0 <= a)%Z -> (a + sumZ zs <= n)%Z ->
      exists z, fval (run_weight item acc cs) = XFin (IZR z) /\ (a <= z <= a + sumZ zs)%Z.
    Proof.
      induction cs as [|c cs IH]; intros zs acc a Hw Ha A0 A1; inversion Hw as [|? z ? zs' [Hc Hz] Hw']; subst.
      - exists a. cbn. split; auto. lia.
      - cbn [run_weight sumZ fold_right] in *. fold (sumZ zs') in *. pose proof (sumZ_pos (wts_pos Hw')).
        destruct (feq (mean c) item).
        + destruct (IH zs' (fadd acc (weight c)) (a + z)%Z) as (y & Y1 & Y2); auto; try lia.
          { rewrite (fadd_fin Ha Hc), <- plus_IZR. apply frnd_exact, exact_int. lia. }
          exists y. split; auto. lia.
        + exists a. split; auto. lia.
    Qed.

    Lemma loop_unit item v lst zl : fval item = XFin v -> fval (weight lst) = XFin (IZR zl) ->
      forall cs zs wsf p a, wts cs zs -> Forall (fun c => bnd B (mean c)) cs -> fval wsf = XFin (IZR p) -> (0 <= p)%Z ->
      (p + sumZ zs <= n)%Z -> est_q_loop item total lst wsf cs = Ret a -> unit_val a.
    Proof.
      intros Hv Hl. destruct HN as (N1 & N2 & N3).
      assert (forall wsf p a, fval wsf = XFin (IZR p) -> (0 <= p <= n)%Z ->
                (if feq item (mean lst) then if feq (weight lst) f1 then Ret (fdiv wsf total) else Ret (fsub f1 (fdiv fhalf total)) else Panic) = Ret a -> unit_val a) as Hend.
      { intros wsf p a Hp Hp1. destruct (feq item (mean lst)); [|discriminate]. destruct (feq (weight lst) f1); intros [= <-].
        - apply div_unit with (1 := Hp). split; apply IZR_le; lia.
        - apply one_minus. apply div_unit with (1 := fval_fhalf). pose proof n_pos. lra. }
      induction cs as [|c cs IH]; intros zs wsf p a Hw Hb Hp P0 P1; inversion Hw as [|? z ? zs' [Hc Hz] Hw']; subst.
      - cbn [est_q_loop]. apply (Hend wsf p); auto. cbn in P1. lia.
      - cbn [sumZ fold_right] in P1. fold (sumZ zs') in P1. pose proof (sumZ_pos (wts_pos Hw')) as Hz'.
        destruct cs as [|d cs].
        + cbn [est_q_loop]. apply (Hend wsf p); auto. lia.
        + inversion Hb as [|? ? (mc & Mc & Mc1) Hb']; subst. inversion Hb' as [|? ? (md & Md & Md1) Hb'']; subst.
          inversion Hw' as [|? zd ? zs'' [Hd Hzd] Hw'']; subst. pose proof (sumZ_pos (wts_pos Hw'')) as Hz''.
          cbn [est_q_loop]. destruct (feq (mean c) item) eqn:E.
          * assert (p + sumZ (z :: zd :: zs'') <= n)%Z as Hs by (cbn [sumZ fold_right] in *; fold (sumZ zs'') in *; lia).
            destruct (@run_weight_int item (c :: d :: cs) (z :: zd :: zs'') f0 0%Z) as (w & W1 & W2); auto.
            { exact (fval_f0 (F:=F)). } { lia. } { lia. }
            cbv zeta. set (dw := run_weight item f0 (c :: d :: cs)) in *. clearbody dw.
            destruct (feq (weight c) _ && _); intros [= <-].
            -- apply div_unit with (1 := Hp). split; apply IZR_le; lia.
            -- assert (fval (fdiv dw f2) = XFin (IZR w / 2)) as H2.
               { apply half_val; auto. lia. }
               eapply div_unit.
               ++ rewrite (fadd_fin Hp H2). replace (IZR p + IZR w / 2) with (IZR (2 * p + w) / 2) by (rewrite plus_IZR, mult_IZR; lra).
                  apply frnd_exact, exact_half. lia.
               ++ split; [assert (0 <= IZR (2 * p + w)) by (apply IZR_le; lia); lra|].
                  assert (IZR (2 * p + w) <= IZR (2 * n)) as HH by (apply IZR_le; lia). rewrite mult_IZR with (n := 2%Z) (m := n) in HH. lra.
          * destruct (fle (mean c) item && flt item (mean d)) eqn:E2.
            -- intros [= <-]. apply andb_true_iff in E2 as [E2 E3].
               rewrite (fle_val Mc Hv) in E2. rewrite (flt_val Hv Md) in E3.
               cbn [sumZ fold_right] in P1. fold (sumZ zs'') in P1.
               eapply interp_unit; eauto; try lra; try lia.
            -- apply (IH (zd :: zs'') (fadd wsf (weight c)) (p + z)%Z); auto; try lia.
               rewrite (fadd_fin Hp Hc), <- plus_IZR. apply frnd_exact, exact_int.
               cbn [sumZ fold_right] in P1. fold (sumZ zs'') in P1. lia.
    Qed.
  End Total.

  (** extremes and means of bounded magnitude, whole weights of sum n *)
  Definition sound (s : tdigest F) (n : Z) : Prop :=
    good B s n /\ ((1 <= n)%Z -> bnd B (t_min s) /\ bnd B (t_max s)).

  Theorem est_q_unit (s : tdigest F) (n : Z) (v : F) : sound s n -> (1 <= n <= N)%Z -> fisnan v = false ->
    exists a, td_est_q s v = Ret a /\ unit_val a.
  Proof.
    intros [[(zs & Hz & Hn) Hb] HL] Hn1 Hv. destruct (HL ltac:(lia)) as [(lo & Hlo & Hlo1) (hi & Hhi & Hhi1)]. destruct HN as (N1 & N2 & N3).
    destruct (@td_est_q_total F FO FL s v Hv) as [a Ha].
    { eapply Forall_impl; [|exact Hb]. intros c. apply bnd_nn. }
    exists a. split; auto. revert Ha. unfold td_est_q.
    assert (fval (total_weight s) = XFin (IZR n)) as Ht.
    { unfold total_weight. rewrite (sum_weights_int Hz); [now rewrite Hn|lia|lia]. }
    assert (unit_val f0) as U0 by (exists 0; split; [apply fval_f0|lra]).
    assert (unit_val f1) as U1 by (exists 1; split; [apply fval_f1|lra]).
    assert (unit_val fhalf) as Uh by (exists (1/2); split; [apply fval_fhalf|lra]).
    assert (forall x, flt v (t_min s) = false -> fgt v (t_max s) = false -> (forall r, fval v = XFin r -> lo <= r <= hi -> x) -> x) as Hin.
    { intros X E1 E2 K.
      assert (fle (t_min s) v = true) as G1.
      { destruct (@fle_total F FO FL (t_min s) v) as [?|HH]; auto; [|congruence]. apply fisnan_false. rewrite Hlo. discriminate. }
      assert (fle v (t_max s) = true) as G2.
      { rewrite fgt_flt in E2. destruct (@fle_total F FO FL v (t_max s)) as [?|HH]; auto; [|congruence]. apply fisnan_false. rewrite Hhi. discriminate. }
      apply fle_iff in G1. apply fle_iff in G2. rewrite Hlo in G1. rewrite Hhi in G2.
      destruct (fval v) as [|b|r] eqn:Ev; apply xle_iff in G1; apply xle_iff in G2; cbn in G1, G2; try tauto.
      - destruct b; tauto.
      - apply (K r); auto. }
    destruct (t_centroids s) as [|first rest] eqn:Ec.
    { inversion Hz; subst. cbn in Hn1. lia. }
    destruct rest as [|second rest].
    { destruct (flt v (t_min s)) eqn:E1; [intros [= <-]; auto|]. destruct (fgt v (t_max s)) eqn:E2; [intros [= <-]; auto|].
      apply (Hin _ eq_refl eq_refl). intros r Hr Hr1.
      destruct (@sub_bnd v (t_min s) r lo Hr Hlo) as (x & X1 & X2 & X3 & X4); auto; [lra| |].
      { apply Rabs_le. apply Rabs_le_inv in Hlo1. apply Rabs_le_inv in Hhi1. lra. }
      destruct (@sub_bnd (t_max s) (t_min s) hi lo Hhi Hlo) as (y & Y1 & Y2 & Y3 & Y4); auto; [lra|].
      assert (x <= y) as Hxy.
      { assert (xle (frnd (r - lo)) (frnd (hi - lo))) as HH by (apply frnd_mono; lra). rewrite X2, Y2 in HH. apply xle_iff in HH. exact HH. }
      assert (fle (fsub v (t_min s)) (fsub (t_max s) (t_min s)) = true) as -> by (now apply (fle_val X1 Y1)).
      intros [= <-]. exact Uh. }
    destruct (flt v (t_min s)) eqn:E1; [intros [= <-]; auto|]. destruct (fgt v (t_max s)) eqn:E2; [intros [= <-]; auto|].
    apply (Hin _ eq_refl eq_refl). intros r Hr Hr1.
    assert (Rabs r <= B) as Br by (apply Rabs_le; apply Rabs_le_inv in Hlo1; apply Rabs_le_inv in Hhi1; lra).
    destruct (last_error (first :: second :: rest)) as [lst|] eqn:El; [|discriminate]. cbn [unwrap bind].
    destruct (last_error_wts Hz El) as (zl & Zl1 & Zl2 & Zl3).
    pose proof (last_error_In _ El) as Hin_l. rewrite Forall_forall in Hb. destruct (Hb _ Hin_l) as (ml & Ml & Ml1).
    destruct (Hb first (or_introl eq_refl)) as (mf & Mf & Mf1).
    assert (exists zf, fval (weight first) = XFin (IZR zf) /\ (1 <= zf <= n)%Z) as (zf & Zf1 & Zf2).
    { inversion Hz as [|? zf ? zs' [A1 A2] A3]; subst. exists zf. split; auto. pose proof (sumZ_pos (wts_pos A3)). cbn [sumZ fold_right]. fold (sumZ zs'). lia. }
    destruct (flt v (mean first)) eqn:E3.
    { intros [= <-]. rewrite (flt_val Hr Mf) in E3. destruct (fgt (fsub (mean first) (t_min s)) f0) eqn:E4; auto.
      destruct (feq v (t_min s)).
      - apply (@div_unit (total_weight s) n Hn1 Ht) with (1 := fval_fhalf). assert (1 <= IZR n) by (apply IZR_le; lia). lra.
      - destruct (@sub_bnd v (t_min s) r lo Hr Hlo) as (x & X1 & X2 & X3 & X4); auto; [lra|].
        destruct (@sub_bnd (mean first) (t_min s) mf lo Mf Hlo) as (y & Y1 & Y2 & Y3 & Y4); auto; [lra|].
        assert (x <= y) as Hxy.
        { assert (xle (frnd (r - lo)) (frnd (mf - lo))) as HH by (apply frnd_mono; lra). rewrite X2, Y2 in HH. apply xle_iff in HH. exact HH. }
        assert (0 < y) as Hy0.
        { rewrite fgt_flt in E4. apply flt_iff in E4. rewrite fval_f0, Y1 in E4. apply xlt_iff in E4. exact E4. }
        eapply end_unit; eauto. lra. }
    destruct (fgt v (mean lst)) eqn:E4.
    { intros [= <-]. rewrite (fgt_val Hr Ml) in E4. destruct (fgt (fsub (t_max s) (mean lst)) f0) eqn:E5; auto.
      destruct (feq v (t_max s)).
      - apply one_minus. apply (@div_unit (total_weight s) n Hn1 Ht) with (1 := fval_fhalf). assert (1 <= IZR n) by (apply IZR_le; lia). lra.
      - destruct (@sub_bnd (t_max s) v hi r Hhi Hr) as (x & X1 & X2 & X3 & X4); auto; [lra|].
        destruct (@sub_bnd (t_max s) (mean lst) hi ml Hhi Ml) as (y & Y1 & Y2 & Y3 & Y4); auto; [lra|].
        assert (x <= y) as Hxy.
        { assert (xle (frnd (hi - r)) (frnd (hi - ml))) as HH by (apply frnd_mono; lra). rewrite X2, Y2 in HH. apply xle_iff in HH. exact HH. }
        assert (0 < y) as Hy0.
        { rewrite fgt_flt in E5. apply flt_iff in E5. rewrite fval_f0, Y1 in E5. apply xlt_iff in E5. exact E5. }
        apply one_minus. eapply end_unit; eauto; [lra|lia]. }
    intros HL'. eapply (@loop_unit (total_weight s) n Hn1 Ht v r lst zl Hr Zl2 (first :: second :: rest) zs f0 0%Z a); eauto.
    - apply Forall_forall. auto.
    - exact (fval_f0 (F:=F)).
    - lia.
    - lia.
  Qed.
End Range.
