(** The scale functions over the reals: values, inverses, monotonicity, stepping one unit. *)
From Coq Require Import List ZArith Lia Bool Reals Lra Psatz.
From Flocq Require Import Core.
From Verif Require Import Base Floats XReal Digest TDigest Spec TDigestExact ScaleFunctions.
Set Implicit Arguments.
Local Open Scope R_scope.

(* ------------------------------------------------------------------ *)
(** ** Logarithm and power to the base 10 *)
Lemma ln10_pos : 0 < ln 10.
Proof. rewrite <- ln_1. apply ln_increasing; lra. Qed.
Lemma log10_mult a b : 0 < a -> 0 < b -> log10 (a * b) = log10 a + log10 b.
Proof. intros. unfold log10. rewrite ln_mult by auto. field. pose proof ln10_pos. lra. Qed.
Lemma log10_inv a : 0 < a -> log10 (/ a) = - log10 a.
Proof. intros. unfold log10. rewrite ln_Rinv by auto. field. pose proof ln10_pos. lra. Qed.
Lemma log10_div a b : 0 < a -> 0 < b -> log10 (a / b) = log10 a - log10 b.
Proof. intros. unfold Rdiv. rewrite log10_mult, log10_inv; auto using Rinv_0_lt_compat. Qed.
Lemma log10_lt a b : 0 < a -> a < b -> log10 a < log10 b.
Proof. intros. unfold log10, Rdiv. apply Rmult_lt_compat_r; [apply Rinv_0_lt_compat, ln10_pos|]. now apply ln_increasing. Qed.
Lemma log10_le a b : 0 < a -> a <= b -> log10 a <= log10 b.
Proof. intros H [H1| ->]; [left; now apply log10_lt|lra]. Qed.
Lemma log10_1 : log10 1 = 0.
Proof. unfold log10. rewrite ln_1. unfold Rdiv. ring. Qed.
Lemma log10_10 : log10 10 = 1.
Proof. unfold log10. field. pose proof ln10_pos. lra. Qed.
Lemma pow10_pos x : 0 < pow10 x.
Proof. apply exp_pos. Qed.
Lemma pow10_log10 a : 0 < a -> pow10 (log10 a) = a.
Proof.
  intros. unfold pow10, log10, Rpower. replace (ln a / ln 10 * ln 10) with (ln a) by (field; pose proof ln10_pos; lra).
  now apply exp_ln.
Qed.
Lemma log10_pow10 x : log10 (pow10 x) = x.
Proof. unfold pow10, log10, Rpower. rewrite ln_exp. field. pose proof ln10_pos. lra. Qed.
Lemma pow10_lt a b : a < b -> pow10 a < pow10 b.
Proof. intros. unfold pow10. apply Rpower_lt; lra. Qed.
Lemma pow10_le a b : a <= b -> pow10 a <= pow10 b.
Proof. intros [H| ->]; [left; now apply pow10_lt|lra]. Qed.
Lemma pow10_0 : pow10 0 = 1.
Proof. unfold pow10. apply Rpower_O. lra. Qed.
Lemma pow10_opp a : pow10 (- a) = / pow10 a.
Proof. unfold pow10. apply Rpower_Ropp. Qed.

(* ------------------------------------------------------------------ *)
(** ** The extended functions on finite arguments *)
Lemma xfk z : fk z = XFin (IZR z).
Proof. reflexivity. Qed.
Lemma rsign_pos r : 0 < r -> rsign r = Some false.
Proof. intros. unfold rsign. now rewrite Rcompare_Gt. Qed.
Lemma rsign_neg r : r < 0 -> rsign r = Some true.
Proof. intros. unfold rsign. now rewrite Rcompare_Lt. Qed.
Lemma rsign_0 : rsign 0 = None.
Proof. unfold rsign. now rewrite Rcompare_Eq. Qed.
Lemma xlog10_pos r : 0 < r -> flog10 (XFin r) = XFin (log10 r).
Proof. intros. cbn. now rewrite rsign_pos. Qed.
Lemma xlog10_0 : flog10 (XFin 0) = XInf true.
Proof. cbn. now rewrite rsign_0. Qed.
Lemma xpow_10 e : fpowf (fk 10) (XFin e) = XFin (pow10 e).
Proof.
  cbn [fpowf xr_math]. unfold xpowf. rewrite xfk. destruct (feq (XFin e) (XFin 2)) eqn:E.
  - apply xeq_b in E. subst e. cbn. apply f_equal. unfold pow10. replace 2 with (1 + 1) at 1 by lra. rewrite Rpower_plus, Rpower_1; lra.
  - rewrite (proj2 (xlt_b 1 10)) by lra. reflexivity.
Qed.
Lemma xpow_10_inf s : fpowf (fk 10) (XInf s) = if s then XFin 0 else XInf false.
Proof. cbn [fpowf xr_math]. unfold xpowf. rewrite xfk. rewrite (proj2 (xlt_b 1 10)) by lra. destruct s; reflexivity. Qed.
Lemma xpow_sq r : fpowf (XFin r) (fk 2) = XFin (r * r).
Proof. cbn [fpowf xr_math]. unfold xpowf. rewrite xfk. rewrite (proj2 (xeq_b 2 2)) by lra. reflexivity. Qed.
Lemma xasin_fin r : -1 <= r <= 1 -> fasin (XFin r) = XFin (asin r).
Proof. intros [A B]. cbn. rewrite Rle_bool_true, Rle_bool_true by lra. reflexivity. Qed.
Lemma xmul_inf_pos s r : 0 < r -> fmul (XFin r) (XInf s) = XInf s.
Proof. intros. cbn. rewrite rsign_pos by lra. destruct s; reflexivity. Qed.
Lemma xmul_inf_pos' s r : 0 < r -> fmul (XInf s) (XFin r) = XInf s.
Proof. intros. cbn. rewrite rsign_pos by lra. destruct s; reflexivity. Qed.
Lemma xdiv_inf_pos s r : 0 < r -> fdiv (XInf s) (XFin r) = XInf s.
Proof. intros. cbn. rewrite rsign_pos by lra. destruct s; reflexivity. Qed.

Ltac xfin := repeat (rewrite xfk || rewrite xsub_fin || rewrite xmul_fin || rewrite xadd_fin || rewrite xfhalf || rewrite xf1 ||
                     (rewrite xdiv_fin by (try apply Rgt_not_eq; lra))).

(* ------------------------------------------------------------------ *)
(** ** k0 *)
Definition rk0 (cf q : R) : R := q * cf / 2.
Lemma k0_val q cf n : k0 (XFin q) (XFin cf) n = XFin (rk0 cf q).
Proof. unfold k0. xfin. reflexivity. Qed.
Lemma inv_k0_val s cf n : cf <> 0 -> inv_k0 (XFin s) (XFin cf) n = XFin (s * 2 / cf).
Proof. intros. unfold inv_k0. xfin. now rewrite xdiv_fin. Qed.

(* ------------------------------------------------------------------ *)
(** ** k1 *)
Definition rk1 (cf q : R) : R := cf / (2 * PI) * asin (2 * q - 1).
Lemma k1_val q cf n : 0 <= q <= 1 -> k1 (XFin q) (XFin cf) n = XFin (rk1 cf q).
Proof.
  intros. unfold k1. rewrite !xfk. change fpi with (XFin PI). rewrite !xmul_fin, xsub_fin.
  rewrite xasin_fin by lra. pose proof PI_RGT_0. rewrite xdiv_fin, xmul_fin by lra. reflexivity.
Qed.
Lemma inv_k1_val s cf n : cf <> 0 -> inv_k1 (XFin s) (XFin cf) n = XFin ((1 + sin (2 * PI * s / cf)) / 2).
Proof.
  intros. unfold inv_k1. rewrite !xfk. change fpi with (XFin PI). rewrite !xmul_fin, xdiv_fin by auto.
  change (fsin (XFin (2 * PI * s / cf))) with (XFin (sin (2 * PI * s / cf))). rewrite xadd_fin, xdiv_fin by lra. reflexivity.
Qed.

(* ------------------------------------------------------------------ *)
(** ** k2 and k3: log-based *)
Definition den (a cf n : R) : R := 4 * log10 (n / cf) + a.
Definition logit (q : R) : R := log10 (q / (1 - q)).
Definition expit (y : R) : R := pow10 y / (1 + pow10 y).
Definition rk2 (cf n q : R) : R := cf / den 24 cf n * logit q.

Lemma logit_lt q q' : 0 < q -> q < q' -> q' < 1 -> logit q < logit q'.
Proof.
  intros. unfold logit. apply log10_lt.
  - apply Rdiv_lt_0_compat; lra.
  - apply Rmult_lt_reg_r with ((1 - q) * (1 - q')); [apply Rmult_lt_0_compat; lra|]. field_simplify; nra.
Qed.
Lemma expit_logit q : 0 < q < 1 -> expit (logit q) = q.
Proof. intros. unfold expit, logit. rewrite pow10_log10 by (apply Rdiv_lt_0_compat; lra). field. lra. Qed.
Lemma expit_range y : 0 < expit y < 1.
Proof.
  unfold expit. pose proof (pow10_pos y). split; [apply Rdiv_lt_0_compat; lra|].
  apply Rmult_lt_reg_r with (1 + pow10 y); [lra|]. field_simplify; lra.
Qed.
Lemma logit_expit y : logit (expit y) = y.
Proof.
  unfold expit, logit. pose proof (pow10_pos y).
  replace (pow10 y / (1 + pow10 y) / (1 - pow10 y / (1 + pow10 y))) with (pow10 y) by (field; lra).
  apply log10_pow10.
Qed.
Lemma expit_lt a b : a < b -> expit a < expit b.
Proof.
  intros. destruct (Rlt_dec (expit a) (expit b)) as [|N]; auto. exfalso.
  pose proof (expit_range a). pose proof (expit_range b).
  destruct (Req_dec (expit a) (expit b)) as [E|E].
  - apply f_equal with (f := logit) in E. rewrite !logit_expit in E. lra.
  - assert (logit (expit b) < logit (expit a)) as C by (apply logit_lt; lra). rewrite !logit_expit in C. lra.
Qed.

Section Log.
  Variables (cf n : R).
  Hypothesis Hr : 0 < n / cf.
  Hypothesis Hcf : cf <> 0.

  Lemma den_val a : fadd (fmul (fk 4) (flog10 (fdiv (XFin n) (XFin cf)))) (fk a) = XFin (den (IZR a) cf n).
  Proof. rewrite !xfk, xdiv_fin, xlog10_pos, xmul_fin, xadd_fin by auto. reflexivity. Qed.

  Lemma k2_val q : den 24 cf n <> 0 -> 0 < q < 1 -> k2 (XFin q) (XFin cf) (XFin n) = XFin (rk2 cf n q).
  Proof.
    intros Hd Hq. unfold k2. rewrite den_val. rewrite !xfk, xsub_fin, !xdiv_fin by lra.
    rewrite xlog10_pos by (apply Rdiv_lt_0_compat; lra). rewrite xmul_fin. reflexivity.
  Qed.
  Lemma inv_k2_val s : inv_k2 (XFin s) (XFin cf) (XFin n) = XFin (expit (s * den 24 cf n / cf)).
  Proof.
    unfold inv_k2. rewrite den_val, xmul_fin, xdiv_fin, xpow_10, xfk, xadd_fin by auto.
    pose proof (pow10_pos (s * den 24 cf n / cf)). rewrite xdiv_fin by lra. reflexivity.
  Qed.
  Lemma k2_0 : 0 < cf / den 24 cf n -> k2 (XFin 0) (XFin cf) (XFin n) = XInf true.
  Proof.
    intros Hd. assert (den 24 cf n <> 0) as Hd'. { intros E. rewrite E in Hd. unfold Rdiv in Hd. rewrite Rinv_0 in Hd. lra. }
    unfold k2. rewrite den_val, !xfk, xsub_fin, !xdiv_fin by lra.
    replace (0 / (1 - 0)) with 0 by field. rewrite xlog10_0. apply xmul_inf_pos. exact Hd.
  Qed.
  Lemma inv_k2_neginf : 0 < cf -> 0 < den 24 cf n -> inv_k2 (XInf true) (XFin cf) (XFin n) = XFin 0.
  Proof.
    intros H1 H2. unfold inv_k2. rewrite den_val, xmul_inf_pos', xdiv_inf_pos, xpow_10_inf, xfk, xadd_fin, xdiv_fin by lra.
    apply f_equal. field.
  Qed.

  (** k3 *)
  Definition trilog (q : R) : R := if Rle_dec q (1 / 2) then log10 (2 * q) else - log10 (2 * (1 - q)).
  Definition triexp (p : R) : R := if Rle_dec p 0 then pow10 p / 2 else 1 - pow10 (- p) / 2.
  Definition rk3 (q : R) : R := cf / den 21 cf n * trilog q.

  Lemma k3_val q : den 21 cf n <> 0 -> 0 < q < 1 -> k3 (XFin q) (XFin cf) (XFin n) = XFin (rk3 q).
  Proof.
    intros Hd Hq. unfold k3, rk3, trilog. rewrite den_val, xdiv_fin, !xfk, xsub_fin, !xmul_fin, xfhalf by auto.
    destruct (Rle_dec q (1 / 2)) as [H|H].
    - rewrite (proj2 (xle_b _ _) H), xlog10_pos, xmul_fin by lra. reflexivity.
    - rewrite (proj2 (xle_f q (1 / 2))) by lra. rewrite xlog10_pos by lra. cbn [fneg xr_ops xneg]. rewrite xmul_fin. reflexivity.
  Qed.
  Lemma inv_k3_val s : inv_k3 (XFin s) (XFin cf) (XFin n) = XFin (triexp (s * den 21 cf n / cf)).
  Proof.
    unfold inv_k3. rewrite den_val, xmul_fin, xdiv_fin by auto. set (p := s * den 21 cf n / cf).
    cbn [fneg xr_ops xneg]. rewrite !xpow_10. rewrite pow10_opp. pose proof (pow10_pos p) as Hp.
    rewrite !xfk, xsub_fin, !xdiv_fin, xfhalf, !xsub_fin by lra. cbn [fabs xr_ops xabs].
    unfold triexp. set (u := pow10 p) in *.
    assert (0 < / u) as Hu by (now apply Rinv_0_lt_compat). assert (u * / u = 1) as Huu by (field; lra).
    destruct (Rle_dec p 0) as [H|H].
    - assert (u <= 1) as Hu1 by (unfold u; rewrite <- pow10_0; now apply pow10_le).
      assert (1 <= / u) by nra.
      rewrite (proj2 (xgt_f _ _)); [reflexivity|].
      rewrite (Rabs_pos_eq (1 / 2 - u / 2)) by lra. rewrite Rabs_pos_eq by lra. nra.
    - assert (1 < u) as Hu1 by (unfold u; rewrite <- pow10_0; apply pow10_lt; lra).
      assert (/ u < 1) by nra.
      rewrite (proj2 (xgt_b _ _)).
      + apply f_equal. rewrite pow10_opp. fold u. field. lra.
      + rewrite (Rabs_left (1 / 2 - u / 2)) by lra. rewrite Rabs_left by lra. nra.
  Qed.
  Lemma k3_0 : 0 < cf / den 21 cf n -> k3 (XFin 0) (XFin cf) (XFin n) = XInf true.
  Proof.
    intros Hd. assert (den 21 cf n <> 0) as Hd'. { intros E. rewrite E in Hd. unfold Rdiv in Hd. rewrite Rinv_0 in Hd. lra. }
    unfold k3. rewrite den_val, xdiv_fin, xfhalf, (proj2 (xle_b 0 (1 / 2))), xfk, xmul_fin, Rmult_0_r, xlog10_0 by lra.
    now apply xmul_inf_pos.
  Qed.
  Lemma inv_k3_neginf : 0 < cf -> 0 < den 21 cf n -> inv_k3 (XInf true) (XFin cf) (XFin n) = XFin 0.
  Proof.
    intros H1 H2. unfold inv_k3. rewrite den_val, xmul_inf_pos', xdiv_inf_pos by auto. cbn [fneg xr_ops xneg negb].
    rewrite !xpow_10_inf, xfhalf, !xfk, xdiv_fin by lra. 
    replace (fdiv (fsub (XFin 2) (XInf false)) (XFin 2)) with (XInf true).
    - cbn. apply f_equal. field.
    - cbn. rewrite rsign_pos by lra. reflexivity.
  Qed.
End Log.

Lemma trilog_lt q q' : 0 < q -> q < q' -> q' < 1 -> trilog q < trilog q'.
Proof.
  intros. unfold trilog. destruct (Rle_dec q (1 / 2)); destruct (Rle_dec q' (1 / 2)); try lra.
  - apply log10_lt; lra.
  - assert (log10 (2 * q) <= 0) by (rewrite <- log10_1; apply log10_le; lra).
    assert (log10 (2 * (1 - q')) < 0) by (rewrite <- log10_1; apply log10_lt; lra). lra.
  - apply Ropp_lt_contravar, log10_lt; lra.
Qed.
Lemma triexp_trilog q : 0 < q < 1 -> triexp (trilog q) = q.
Proof.
  intros. unfold triexp, trilog. destruct (Rle_dec q (1 / 2)) as [H1|H1].
  - assert (log10 (2 * q) <= 0) by (rewrite <- log10_1; apply log10_le; lra).
    destruct (Rle_dec _ 0); [|lra]. rewrite pow10_log10 by lra. field.
  - assert (log10 (2 * (1 - q)) < 0) by (rewrite <- log10_1; apply log10_lt; lra).
    destruct (Rle_dec _ 0); [lra|]. rewrite Ropp_involutive, pow10_log10 by lra. field.
Qed.
Lemma triexp_range p : 0 < triexp p < 1.
Proof.
  unfold triexp. destruct (Rle_dec p 0).
  - pose proof (pow10_pos p). assert (pow10 p <= 1) by (rewrite <- pow10_0; now apply pow10_le). lra.
  - pose proof (pow10_pos (- p)). assert (pow10 (- p) < 1) by (rewrite <- pow10_0; apply pow10_lt; lra). lra.
Qed.
Lemma trilog_triexp p : trilog (triexp p) = p.
Proof.
  unfold triexp. destruct (Rle_dec p 0); unfold trilog.
  - assert (pow10 p <= 1) by (rewrite <- pow10_0; now apply pow10_le). destruct (Rle_dec _ (1 / 2)); [|lra].
    replace (2 * (pow10 p / 2)) with (pow10 p) by field. apply log10_pow10.
  - assert (pow10 (- p) < 1) by (rewrite <- pow10_0; apply pow10_lt; lra). destruct (Rle_dec _ (1 / 2)); [lra|].
    replace (2 * (1 - (1 - pow10 (- p) / 2))) with (pow10 (- p)) by field. rewrite log10_pow10. ring.
Qed.
Lemma triexp_lt a b : a < b -> triexp a < triexp b.
Proof.
  intros. destruct (Rlt_dec (triexp a) (triexp b)) as [|N]; auto. exfalso.
  pose proof (triexp_range a). pose proof (triexp_range b).
  destruct (Req_dec (triexp a) (triexp b)) as [E|E].
  - apply f_equal with (f := trilog) in E. rewrite !trilog_triexp in E. lra.
  - assert (trilog (triexp b) < trilog (triexp a)) as C by (apply trilog_lt; lra). rewrite !trilog_triexp in C. lra.
Qed.

(* ------------------------------------------------------------------ *)
(** ** k2n: k2 with a compression factor that depends on n *)
Definition cfn (cf n : R) : R := cf / 10 * (log10 n * log10 n).
Lemma cfn_val cf n : 0 < n -> fmul (fdiv (XFin cf) (fk 10)) (fpowf (flog10 (XFin n)) (fk 2)) = XFin (cfn cf n).
Proof. intros. rewrite xlog10_pos, xpow_sq, xfk, xdiv_fin, xmul_fin by lra. reflexivity. Qed.
Lemma k2n_as_k2 q cf n : 0 < n -> k2n (XFin q) (XFin cf) (XFin n) = k2 (XFin q) (XFin (cfn cf n)) (XFin n).
Proof. intros. unfold k2n. cbv zeta. rewrite cfn_val by auto. reflexivity. Qed.
Lemma inv_k2n_as_k2 s cf n : 0 < n -> inv_k2n s (XFin cf) (XFin n) = inv_k2 s (XFin (cfn cf n)) (XFin n).
Proof. intros. unfold inv_k2n. cbv zeta. rewrite cfn_val by auto. reflexivity. Qed.
Lemma k2_asym_as_k2 q cf n : k2_asym (XFin q) (XFin cf) n = k2 (XFin (q * (1 / 2))) (XFin (cf * 2)) n.
Proof. unfold k2_asym. cbv zeta. rewrite xfhalf, xfk, !xmul_fin. reflexivity. Qed.
Lemma inv_k2_asym_as_k2 s cf n : inv_k2_asym s (XFin cf) n = fmul (inv_k2 s (XFin (cf * 2)) n) (XFin 2).
Proof. unfold inv_k2_asym. rewrite xfk, xmul_fin. reflexivity. Qed.

(* ------------------------------------------------------------------ *)
(** ** Inverses *)
Lemma k0_inv q cf n : cf <> 0 -> inv_k0 (k0 (XFin q) (XFin cf) n) (XFin cf) n = XFin q.
Proof. intros. rewrite k0_val, inv_k0_val by auto. apply f_equal. unfold rk0. field. auto. Qed.

Lemma turn_val cf q : cf <> 0 -> 2 * PI * rk1 cf q / cf = asin (2 * q - 1).
Proof. intros. unfold rk1. field. split; auto. pose proof PI_RGT_0. lra. Qed.
Lemma k1_inv q cf n : cf <> 0 -> 0 <= q <= 1 -> inv_k1 (k1 (XFin q) (XFin cf) n) (XFin cf) n = XFin q.
Proof. intros. rewrite k1_val, inv_k1_val by auto. apply f_equal. rewrite turn_val, sin_asin by (auto; lra). field. Qed.

Lemma k2_inv q cf n : cf <> 0 -> 0 < n / cf -> den 24 cf n <> 0 -> 0 < q < 1 ->
  inv_k2 (k2 (XFin q) (XFin cf) (XFin n)) (XFin cf) (XFin n) = XFin q.
Proof.
  intros. rewrite k2_val, inv_k2_val by auto. apply f_equal. unfold rk2.
  replace (cf / den 24 cf n * logit q * den 24 cf n / cf) with (logit q) by (field; auto). now apply expit_logit.
Qed.
Lemma k3_inv q cf n : cf <> 0 -> 0 < n / cf -> den 21 cf n <> 0 -> 0 < q < 1 ->
  inv_k3 (k3 (XFin q) (XFin cf) (XFin n)) (XFin cf) (XFin n) = XFin q.
Proof.
  intros. rewrite k3_val, inv_k3_val by auto. apply f_equal. unfold rk3.
  replace (cf / den 21 cf n * trilog q * den 21 cf n / cf) with (trilog q) by (field; auto). now apply triexp_trilog.
Qed.
Lemma k2_asym_inv q cf n : cf <> 0 -> 0 < n / (cf * 2) -> den 24 (cf * 2) n <> 0 -> 0 < q < 2 ->
  inv_k2_asym (k2_asym (XFin q) (XFin cf) (XFin n)) (XFin cf) (XFin n) = XFin q.
Proof.
  intros. rewrite k2_asym_as_k2, inv_k2_asym_as_k2, k2_inv, xmul_fin by (auto; lra). apply f_equal. field.
Qed.
Lemma k2n_inv q cf n : 0 < n -> 0 < n / cfn cf n -> den 24 (cfn cf n) n <> 0 -> 0 < q < 1 ->
  inv_k2n (k2n (XFin q) (XFin cf) (XFin n)) (XFin cf) (XFin n) = XFin q.
Proof.
  intros Hn Hr Hd Hq. rewrite k2n_as_k2, inv_k2n_as_k2 by auto. apply k2_inv; auto.
  intros E. rewrite E in Hr. unfold Rdiv in Hr. rewrite Rinv_0 in Hr. lra.
Qed.

(* ------------------------------------------------------------------ *)
(** ** Increasing *)
Lemma asin_lt a b : -1 <= a -> a < b -> b <= 1 -> asin a < asin b.
Proof.
  intros. destruct (Rlt_dec (asin a) (asin b)) as [|N]; auto. exfalso.
  pose proof (asin_bound a). pose proof (asin_bound b).
  assert (sin (asin b) <= sin (asin a)) as C by (apply sin_incr_1; lra).
  rewrite !sin_asin in C by lra. lra.
Qed.
Lemma rk1_lt cf q q' : 0 < cf -> 0 <= q -> q < q' -> q' <= 1 -> rk1 cf q < rk1 cf q'.
Proof.
  intros. unfold rk1. pose proof PI_RGT_0. apply Rmult_lt_compat_l; [apply Rdiv_lt_0_compat; lra|]. apply asin_lt; lra.
Qed.
Lemma rk2_lt cf n q q' : 0 < cf -> 0 < den 24 cf n -> 0 < q -> q < q' -> q' < 1 -> rk2 cf n q < rk2 cf n q'.
Proof. intros. unfold rk2. apply Rmult_lt_compat_l; [now apply Rdiv_lt_0_compat|]. now apply logit_lt. Qed.
Lemma rk3_lt cf n q q' : 0 < cf -> 0 < den 21 cf n -> 0 < q -> q < q' -> q' < 1 -> rk3 cf n q < rk3 cf n q'.
Proof. intros. unfold rk3. apply Rmult_lt_compat_l; [now apply Rdiv_lt_0_compat|]. now apply trilog_lt. Qed.

(** [up k a b]: at the finite arguments a < b, k takes finite values, the second larger *)
Definition up (k : xr -> xr) (a b : R) : Prop := exists x y, k (XFin a) = XFin x /\ k (XFin b) = XFin y /\ x < y.

Lemma k0_up cf n q q' : 0 < cf -> q < q' -> up (fun x => k0 x (XFin cf) n) q q'.
Proof. intros. exists (rk0 cf q), (rk0 cf q'). rewrite !k0_val. repeat split; auto. unfold rk0. nra. Qed.
Lemma k1_up cf n q q' : 0 < cf -> 0 <= q -> q < q' -> q' <= 1 -> up (fun x => k1 x (XFin cf) n) q q'.
Proof. intros. exists (rk1 cf q), (rk1 cf q'). rewrite !k1_val by lra. repeat split; auto. now apply rk1_lt. Qed.
Lemma ratio_pos n cf : 0 < n -> 0 < cf -> 0 < n / cf.
Proof. intros. now apply Rdiv_lt_0_compat. Qed.
Lemma k2_up cf n q q' : 0 < cf -> 0 < n -> 0 < den 24 cf n -> 0 < q -> q < q' -> q' < 1 -> up (fun x => k2 x (XFin cf) (XFin n)) q q'.
Proof.
  intros. exists (rk2 cf n q), (rk2 cf n q'). pose proof (ratio_pos H0 H). rewrite !k2_val by (auto; lra). repeat split; auto. now apply rk2_lt.
Qed.
Lemma k3_up cf n q q' : 0 < cf -> 0 < n -> 0 < den 21 cf n -> 0 < q -> q < q' -> q' < 1 -> up (fun x => k3 x (XFin cf) (XFin n)) q q'.
Proof.
  intros. exists (rk3 cf n q), (rk3 cf n q'). pose proof (ratio_pos H0 H). rewrite !k3_val by (auto; lra). repeat split; auto. now apply rk3_lt.
Qed.
Lemma k2_asym_up cf n q q' : 0 < cf -> 0 < n -> 0 < den 24 (cf * 2) n -> 0 < q -> q < q' -> q' < 2 -> up (fun x => k2_asym x (XFin cf) (XFin n)) q q'.
Proof.
  intros. destruct (@k2_up (cf * 2) n (q * (1 / 2)) (q' * (1 / 2))) as (x & y & A & B & C); try lra.
  exists x, y. rewrite !k2_asym_as_k2. auto.
Qed.
Lemma cfn_pos cf n : 0 < cf -> 0 < n -> n <> 1 -> 0 < cfn cf n.
Proof.
  intros. unfold cfn. apply Rmult_lt_0_compat; [lra|].
  assert (log10 n <> 0) as Hl.
  { intros E. apply H1. rewrite <- (pow10_log10 H0), E. apply pow10_0. }
  nra.
Qed.
Lemma k2n_up cf n q q' : 0 < cf -> 0 < n -> n <> 1 -> 0 < den 24 (cfn cf n) n -> 0 < q -> q < q' -> q' < 1 -> up (fun x => k2n x (XFin cf) (XFin n)) q q'.
Proof.
  intros. pose proof (cfn_pos H H0 H1). destruct (@k2_up (cfn cf n) n q q') as (x & y & A & B & C); auto.
  exists x, y. rewrite !k2n_as_k2 by auto. auto.
Qed.

(* ------------------------------------------------------------------ *)
(** ** One unit on *)
(** the point one unit of scale beyond q *)
Definition stepped (k inv : xr -> xr -> xr -> xr) (cf n : R) (q : R) : xr :=
  inv (fadd (k (XFin q) (XFin cf) (XFin n)) f1) (XFin cf) (XFin n).
Definition forward (k inv : xr -> xr -> xr -> xr) (cf n q : R) : Prop := exists x, stepped k inv cf n q = XFin x /\ q <= x.

Lemma k0_stepped cf n q : cf <> 0 -> stepped k0 inv_k0 cf n q = XFin (q + 2 / cf).
Proof. intros. unfold stepped. rewrite k0_val, xf1, xadd_fin, inv_k0_val by auto. apply f_equal. unfold rk0. field. auto. Qed.
Lemma k1_stepped cf n q : cf <> 0 -> 0 <= q <= 1 -> stepped k1 inv_k1 cf n q = XFin ((1 + sin (asin (2 * q - 1) + 2 * PI / cf)) / 2).
Proof.
  intros. unfold stepped. rewrite k1_val, xf1, xadd_fin, inv_k1_val by auto. do 4 f_equal.
  rewrite <- (turn_val q H). field. auto.
Qed.
Section Log2.
  Variables (cf n : R).
  Hypothesis Hcf : 0 < cf.
  Hypothesis Hn : 0 < n.
  Lemma k2_stepped q : 0 < den 24 cf n -> 0 < q < 1 -> stepped k2 inv_k2 cf n q = XFin (expit (logit q + den 24 cf n / cf)).
  Proof.
    intros. pose proof (ratio_pos Hn Hcf). unfold stepped. rewrite k2_val, xf1, xadd_fin, inv_k2_val by (auto; lra). do 2 f_equal.
    unfold rk2. field. split; lra.
  Qed.
  Lemma k2_stepped_0 : 0 < den 24 cf n -> stepped k2 inv_k2 cf n 0 = XFin 0.
  Proof.
    intros. pose proof (ratio_pos Hn Hcf). unfold stepped. rewrite k2_0 by (auto; try lra; now apply Rdiv_lt_0_compat).
    change (fadd (XInf true) f1) with (XInf true). apply inv_k2_neginf; auto. lra.
  Qed.
  Lemma k3_stepped q : 0 < den 21 cf n -> 0 < q < 1 -> stepped k3 inv_k3 cf n q = XFin (triexp (trilog q + den 21 cf n / cf)).
  Proof.
    intros. pose proof (ratio_pos Hn Hcf). unfold stepped. rewrite k3_val, xf1, xadd_fin, inv_k3_val by (auto; lra). do 2 f_equal.
    unfold rk3. field. split; lra.
  Qed.
  Lemma k3_stepped_0 : 0 < den 21 cf n -> stepped k3 inv_k3 cf n 0 = XFin 0.
  Proof.
    intros. pose proof (ratio_pos Hn Hcf). unfold stepped. rewrite k3_0 by (auto; try lra; now apply Rdiv_lt_0_compat).
    change (fadd (XInf true) f1) with (XInf true). apply inv_k3_neginf; auto. lra.
  Qed.

  Lemma k0_forward q : forward k0 inv_k0 cf n q.
  Proof. exists (q + 2 / cf). split; [apply k0_stepped; lra|]. assert (0 < 2 / cf) by (apply Rdiv_lt_0_compat; lra). lra. Qed.
  Lemma k2_forward q : 0 < den 24 cf n -> 0 <= q < 1 -> forward k2 inv_k2 cf n q.
  Proof.
    intros Hd [[H0| <-] H1].
    - eexists. split; [apply k2_stepped; auto; lra|]. rewrite <- (@expit_logit q) at 1 by lra. left. apply expit_lt.
      assert (0 < den 24 cf n / cf) by (now apply Rdiv_lt_0_compat). lra.
    - exists 0. split; [now apply k2_stepped_0|lra].
  Qed.
  Lemma k3_forward q : 0 < den 21 cf n -> 0 <= q < 1 -> forward k3 inv_k3 cf n q.
  Proof.
    intros Hd [[H0| <-] H1].
    - eexists. split; [apply k3_stepped; auto; lra|]. rewrite <- (@triexp_trilog q) at 1 by lra. left. apply triexp_lt.
      assert (0 < den 21 cf n / cf) by (now apply Rdiv_lt_0_compat). lra.
    - exists 0. split; [now apply k3_stepped_0|lra].
  Qed.
  (** as long as it does not wrap around *)
  Lemma k1_forward q : 0 <= q <= 1 -> asin (2 * q - 1) + 2 * PI / cf <= PI / 2 -> forward k1 inv_k1 cf n q.
  Proof.
    intros Hq Hw. eexists. split; [apply k1_stepped; lra|]. pose proof PI_RGT_0.
    assert (0 < 2 * PI / cf) by (apply Rdiv_lt_0_compat; lra). pose proof (asin_bound (2 * q - 1)).
    assert (sin (asin (2 * q - 1)) <= sin (asin (2 * q - 1) + 2 * PI / cf)) as C by (apply sin_incr_1; lra).
    rewrite sin_asin in C by lra. lra.
  Qed.
  (** for every compression factor above 1 there is a quantile from which the step goes backwards *)
  Lemma k1_backward : 1 < cf -> exists q x, 0 <= q < 1 /\ stepped k1 inv_k1 cf n q = XFin x /\ x < q.
  Proof.
    intros H1. pose proof PI_RGT_0 as HP. set (d := 2 * PI / cf).
    assert (0 < d) as Hd by (apply Rdiv_lt_0_compat; lra).
    assert (d < 2 * PI) as Hd2. { unfold d. apply Rmult_lt_reg_r with cf; auto. unfold Rdiv. rewrite Rmult_assoc, Rinv_l by lra. nra. }
    set (th := PI / 2 - d / 4).
    exists ((1 + sin th) / 2). eexists.
    assert (sin th < 1) as Hs1.
    { rewrite <- sin_PI2. apply sin_increasing_1; unfold th; lra. }
    assert (0 < sin th) as Hs0. { apply sin_gt_0; unfold th; lra. }
    split; [lra|]. split; [apply k1_stepped; lra|].
    replace (2 * ((1 + sin th) / 2) - 1) with (sin th) by field. rewrite asin_sin by (unfold th; lra). fold d.
    assert (sin (th + d) < sin th) as C; [|lra].
    assert (sin (th + d) - sin th = 2 * cos (th + d / 2) * sin (d / 2)) as E.
    { replace (th + d) with ((th + d / 2) + d / 2) by field. replace th with ((th + d / 2) - d / 2) at 2 by field. rewrite sin_plus, sin_minus. ring. }
    assert (0 < sin (d / 2)) by (apply sin_gt_0; lra).
    assert (cos (th + d / 2) < 0) by (apply cos_lt_0; unfold th; lra).
    nra.
  Qed.
End Log2.
Lemma k2n_forward cf n q : 0 < cf -> 0 < n -> n <> 1 -> 0 < den 24 (cfn cf n) n -> 0 <= q < 1 -> forward k2n inv_k2n cf n q.
Proof.
  intros. pose proof (cfn_pos H H0 H1) as Hc. destruct (@k2_forward (cfn cf n) n Hc H0 q) as (x & E & Hx); auto.
  exists x. split; auto. unfold stepped in *. rewrite k2n_as_k2, inv_k2n_as_k2 by auto. exact E.
Qed.
Lemma k2_asym_forward cf n q : 0 < cf -> 0 < n -> 0 < den 24 (cf * 2) n -> 0 <= q <= 1 -> forward k2_asym inv_k2_asym cf n q.
Proof.
  intros. destruct (@k2_forward (cf * 2) n ltac:(lra) H0 (q * (1 / 2))) as (x & E & Hx); auto; try lra.
  exists (x * 2). split; [|lra]. unfold stepped in *. rewrite k2_asym_as_k2, inv_k2_asym_as_k2, E. apply xmul_fin.
Qed.

(* ------------------------------------------------------------------ *)
(** ** A weight within the step spans at most one unit *)
Definition galois (k inv : xr -> xr -> xr -> xr) (cf n : R) : Prop := forall q q', 0 <= q -> q < q' -> q' <= 1 ->
  fle (XFin q') (stepped k inv cf n q) = true ->
  fle (k (XFin q') (XFin cf) (XFin n)) (fadd (k (XFin q) (XFin cf) (XFin n)) f1) = true.

Section Galois.
  Variables (cf n : R).
  Hypothesis Hcf : 0 < cf.
  Hypothesis Hn : 0 < n.
  Lemma k0_galois : galois k0 inv_k0 cf n.
  Proof.
    intros q q' H0 H1 H2. rewrite k0_stepped, !k0_val, xf1, xadd_fin, !xle_b by lra. intros H. unfold rk0.
    assert (2 / cf * cf = 2) by (field; lra). nra.
  Qed.
  Lemma k1_galois : galois k1 inv_k1 cf n.
  Proof.
    intros q q' H0 H1 H2. rewrite k1_stepped, !k1_val, xf1, xadd_fin, !xle_b by lra. intros H.
    pose proof PI_RGT_0 as HP. set (d := 2 * PI / cf) in *. assert (0 < d) as Hd by (apply Rdiv_lt_0_compat; lra).
    pose proof (asin_bound (2 * q - 1)) as B1. pose proof (asin_bound (2 * q' - 1)) as B2.
    assert (asin (2 * q' - 1) <= asin (2 * q - 1) + d) as C.
    { destruct (Rle_dec (PI / 2) (asin (2 * q - 1) + d)) as [|N]; [lra|].
      rewrite <- (asin_sin (asin (2 * q - 1) + d)) by lra.
      destruct (Req_dec (2 * q' - 1) (sin (asin (2 * q - 1) + d))) as [E|E]; [rewrite E; lra|].
      left. apply asin_lt; try lra. apply SIN_bound. }
    unfold rk1. replace 1 with (cf / (2 * PI) * d) at 3 by (unfold d; field; lra).
    rewrite <- Rmult_plus_distr_l. apply Rmult_le_compat_l; auto. left. apply Rdiv_lt_0_compat; lra.
  Qed.
  Lemma k2_galois : 0 < den 24 cf n -> galois k2 inv_k2 cf n.
  Proof.
    intros Hd q q' [H0| <-] H1 H2.
    - rewrite k2_stepped, xle_b by (auto; lra). intros H. pose proof (expit_range (logit q + den 24 cf n / cf)).
      pose proof (ratio_pos Hn Hcf). rewrite !k2_val, xf1, xadd_fin, xle_b by (auto; lra).
      assert (logit q' <= logit q + den 24 cf n / cf) as C.
      { rewrite <- (logit_expit (logit q + den 24 cf n / cf)). destruct H as [H|H]; [|rewrite <- H; lra]. left. apply logit_lt; lra. }
      unfold rk2. replace 1 with (cf / den 24 cf n * (den 24 cf n / cf)) at 1 by (field; lra).
      rewrite <- Rmult_plus_distr_l. apply Rmult_le_compat_l; auto. left. apply Rdiv_lt_0_compat; lra.
    - rewrite k2_stepped_0, xle_b by auto. lra.
  Qed.
  Lemma k3_galois : 0 < den 21 cf n -> galois k3 inv_k3 cf n.
  Proof.
    intros Hd q q' [H0| <-] H1 H2.
    - rewrite k3_stepped, xle_b by (auto; lra). intros H. pose proof (triexp_range (trilog q + den 21 cf n / cf)).
      pose proof (ratio_pos Hn Hcf). rewrite !k3_val, xf1, xadd_fin, xle_b by (auto; lra).
      assert (trilog q' <= trilog q + den 21 cf n / cf) as C.
      { rewrite <- (trilog_triexp (trilog q + den 21 cf n / cf)). destruct H as [H|H]; [|rewrite <- H; lra]. left. apply trilog_lt; lra. }
      unfold rk3. replace 1 with (cf / den 21 cf n * (den 21 cf n / cf)) at 1 by (field; lra).
      rewrite <- Rmult_plus_distr_l. apply Rmult_le_compat_l; auto. left. apply Rdiv_lt_0_compat; lra.
    - rewrite k3_stepped_0, xle_b by auto. lra.
  Qed.
End Galois.
Lemma k2n_galois cf n : 0 < cf -> 0 < n -> n <> 1 -> 0 < den 24 (cfn cf n) n -> galois k2n inv_k2n cf n.
Proof.
  intros. pose proof (cfn_pos H H0 H1) as Hc. pose proof (@k2_galois (cfn cf n) n Hc H0 H2) as G.
  intros q q' Q0 Q1 Q2. specialize (G q q' Q0 Q1 Q2). unfold stepped in *. rewrite !k2n_as_k2, inv_k2n_as_k2 by auto. exact G.
Qed.
Lemma k2_asym_galois cf n : 0 < cf -> 0 < n -> 0 < den 24 (cf * 2) n -> galois k2_asym inv_k2_asym cf n.
Proof.
  intros H H0 H2. pose proof (@k2_galois (cf * 2) n ltac:(lra) H0 H2) as G.
  intros q q' Q0 Q1 Q2 Hle. specialize (G (q * (1/2)) (q' * (1/2)) ltac:(lra) ltac:(lra) ltac:(lra)). unfold stepped in *.
  rewrite !k2_asym_as_k2 in *. apply G. rewrite inv_k2_asym_as_k2 in Hle.
  destruct (inv_k2 _ _ _) as [|[]|x]; cbn in Hle |- *; try discriminate; auto.
  - now rewrite rsign_pos in Hle by lra.
  - change (fle (XFin (q' * (1 / 2))) (XFin x) = true). change (fle (XFin q') (XFin (x * 2)) = true) in Hle. rewrite xle_b in *. lra.
Qed.
