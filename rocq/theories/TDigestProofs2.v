(** The t-digest in any arithmetic: extremes are covered, no call panics on bounded data. *)
From Coq Require Import List Arith ZArith Lia Bool Permutation Sorted Reals Lra.
From Flocq Require Import Core.
From Verif Require Import Base Floats XReal Digest TDigest Spec FloatFacts History TDigestProofs.
Set Implicit Arguments.

Lemma last_error_app {A} (l : list A) x : last_error (l ++ [x]) = Some x.
Proof. induction l as [|a l IH]; auto. cbn [app last_error]. destruct (l ++ [x]) eqn:E; [now destruct l|]. exact IH. Qed.
Lemma last_error_In {A} (l : list A) x : last_error l = Some x -> In x l.
Proof.
  induction l as [|a l IH]; [discriminate|]. destruct l as [|b l]; cbn [last_error].
  - intros [= ->]. now left.
  - intros H. right. apply IH. exact H.
Qed.
Lemma last_error_split {A} (l : list A) x : last_error l = Some x -> exists l', l = l' ++ [x].
Proof.
  destruct l as [|a l] using rev_ind; [discriminate|]. rewrite last_error_app. intros [= ->]. eauto.
Qed.
Lemma head_In {A} (l : list A) x : head l = Some x -> In x l.
Proof. destruct l; [discriminate|]. intros [= ->]. now left. Qed.

Section Extremes.
  Context {F : Type} {FO : FloatOps F} {FL : FloatLaws F}.
  Variable cfg : tcfg F.
  Hypothesis Hlib : lib_ok cfg.

  Lemma fmaxval_nn : fisnan fmaxval = false.
  Proof. apply fisnan_false. pose proof (fmaxval_ge fval_f0). now apply xle_nn_r in H. Qed.
  Lemma fminval_nn : fisnan fminval = false.
  Proof. apply fisnan_false. pose proof (fminval_le fval_f0). now apply xle_nn_l in H. Qed.

  Lemma fmin_nn x y : fisnan x = false -> fisnan (fmin x y) = false.
  Proof. intros H. destruct (fmin_cases x y) as [->| E]; auto. unfold fmin in *. rewrite H in *. destruct (fisnan y) eqn:Ey; congruence. Qed.
  Lemma fmax_nn x y : fisnan x = false -> fisnan (fmax x y) = false.
  Proof. intros H. destruct (fmax_cases x y) as [->| E]; auto. unfold fmax in *. rewrite H in *. destruct (fisnan y) eqn:Ey; congruence. Qed.

  (** the recorded minimum and maximum enclose every item and every centroid with a numeric mean *)
  Definition covers (s : tdigest F) (its : list F) : Prop :=
    fisnan (t_min s) = false /\ fisnan (t_max s) = false /\
    (forall x, In x its -> fle (t_min s) x = true /\ fle x (t_max s) = true).

  Lemma add_covers s its buf l : covers s its -> no_nan l -> (forall x, In x l -> In (unit_cen x) buf) ->
    whenever (fun s' => covers s' (its ++ l)) (add_centroid_buffer cfg s buf).
  Proof.
    intros (C1 & C2 & C3) Hn Hl.
    destruct (add_centroid_buffer_cases Hlib s buf) as [->|[(E & ->)|(sorted & gs & first & lst & A1 & A2 & A3 & A4 & A5 & A6 & A7 & ->)]].
    - exact I.
    - apply app_eq_nil in E as [-> E]. cbn. destruct l as [|x l]; [now rewrite app_nil_r; repeat split; auto; apply C3|].
      exfalso. apply (Hl x). now left.
    - cbn [whenever]. unfold covers. cbn [t_min t_max].
      split; [now apply fmin_nn|]. split; [now apply fmax_nn|].
      intros x Hx. apply in_app_or in Hx as [Hx|Hx].
      + destruct (C3 x Hx) as [D1 D2]. split.
        * eapply fle_trans; [|exact D1]. now apply fmin_le_l.
        * eapply fle_trans; [exact D2|]. now apply fmax_ge_l.
      + assert (In (unit_cen x) sorted) as Hs.
        { eapply Permutation_in; [symmetry; exact A1|]. apply in_or_app. left. now apply Hl. }
        assert (fisnan x = false) as Hxn by (unfold no_nan in Hn; rewrite Forall_forall in Hn; now apply Hn).
        assert (fle (mean first) x = true /\ fle x (mean lst) = true) as [B1 B2].
        { destruct A3 as [A3|A3].
          - destruct sorted as [|a [|b sorted]]; cbn in A3; try lia; [discriminate|].
            cbn in Hs. destruct Hs as [->|[]]. cbn in A4, A5. injection A4 as <-. injection A5 as <-. cbn [mean unit_cen].
            split; now apply fle_refl.
          - specialize (A2 A3). assert (fisnan (mean (unit_cen x)) = false) as Hxn' by exact Hxn. split.
            + destruct sorted as [|a sorted]; [discriminate|]. injection A4 as <-.
              destruct Hs as [->|Hs]; [now apply fle_refl|].
              apply StronglySorted_inv in A2 as [_ A2]. rewrite Forall_forall in A2. exact (A2 _ Hs).
            + apply last_error_split in A5 as (l' & E). rewrite E in Hs, A2.
              apply in_app_or in Hs as [Hs|[->|[]]]; [|now apply fle_refl].
              clear -A2 Hs. induction l' as [|a l' IH]; [destruct Hs|]. cbn in A2. apply StronglySorted_inv in A2 as [A2 A3].
              destruct Hs as [->|Hs]; [|now apply IH]. rewrite Forall_forall in A3. apply (A3 lst). apply in_or_app. right. now left. }
        split.
        * eapply fle_trans; [|exact B1]. apply fmin_le_r. eapply fle_nn_l; eauto.
        * eapply fle_trans; [exact B2|]. apply fmax_ge_r. eapply fle_nn_r; eauto.
  Qed.

  Lemma td_exec_covers ops : no_nan (items_of ops) ->
    whenever (fun r => forall x, In x (items_of ops) -> fle (t_min (fst r)) x = true /\ fle x (t_max (fst r)) = true)
      (exec (t_digest cfg) td_new ops).
  Proof.
    intros Hn.
    apply whenever_mono with (P := fun r => no_nan (items_of ops) -> covers (fst r) (items_of ops)).
    - refine (@exec_whenever F (t_digest cfg) (fun s its => no_nan its -> covers s its) _ ops td_new [] _).
      + intros s its o HI. destruct o as [x|l|v|q]; cbn [step items_of].
        * eapply whenever_bind with (P := fun s' => no_nan (its ++ [x]) -> covers s' (its ++ [x])); [|cbn; auto].
          cbn [d_add t_digest]. unfold td_add.
          destruct (existsb fisnan (its ++ [x])) eqn:E.
          { eapply whenever_mono; [apply whenever_true|]. intros s' _ HH. exfalso. apply existsb_exists in E as (y & Hy & Hy').
            unfold no_nan in HH. rewrite Forall_forall in HH. rewrite (HH _ Hy) in Hy'. discriminate. }
          assert (no_nan (its ++ [x])) as Hnn.
          { apply Forall_forall. intros y Hy. destruct (fisnan y) eqn:Ey; auto. rewrite <- E. symmetry. apply existsb_exists; eauto. }
          apply Forall_app in Hnn as [N1 N2]. eapply whenever_mono; [apply add_covers with (l := [x]); auto|auto].
          intros y [<-|[]]. now left.
        * rewrite app_nil_r. eapply whenever_bind with (P := fun s' => no_nan (its ++ l) -> covers s' (its ++ l)); [|cbn; auto].
          cbn [d_add_buffer t_digest]. unfold td_add_buffer.
          destruct (existsb fisnan (its ++ l)) eqn:E.
          { eapply whenever_mono; [apply whenever_true|]. intros s' _ HH. exfalso. apply existsb_exists in E as (y & Hy & Hy').
            unfold no_nan in HH. rewrite Forall_forall in HH. rewrite (HH _ Hy) in Hy'. discriminate. }
          assert (no_nan (its ++ l)) as Hnn.
          { apply Forall_forall. intros y Hy. destruct (fisnan y) eqn:Ey; auto. rewrite <- E. symmetry. apply existsb_exists; eauto. }
          apply Forall_app in Hnn as [N1 N2]. eapply whenever_mono; [apply add_covers with (l := l); auto|auto].
          intros y Hy. now apply in_map.
        * rewrite app_nil_r. cbn [d_est_q t_digest]. rewrite bind_assoc. eapply whenever_bind; [apply whenever_true|]. intros a _. exact HI.
        * rewrite app_nil_r. cbn [d_est_v t_digest]. rewrite bind_assoc. eapply whenever_bind; [apply whenever_true|]. intros a _. exact HI.
      + intros _. split; [apply fmaxval_nn|]. split; [apply fminval_nn|]. intros x [].
    - intros [s a] H. cbn [fst] in *. apply (H Hn).
  Qed.
End Extremes.

(* ------------------------------------------------------------------ *)
(** ** Quantile queries never reach the panic *)
Section QueryQ.
  Context {F : Type} {FO : FloatOps F} {FL : FloatLaws F}.

  Lemma feq_of_le x y : fle x y = true -> fle y x = true -> feq x y = true.
  Proof. rewrite !fle_iff, feq_iff. intros H1 H2. split; [now apply xle_antisym|]. now apply xle_nn_l in H1. Qed.

  Lemma est_q_loop_total item total lst cs : forall wsf,
    fisnan item = false -> Forall (fun c => fisnan (mean c) = false) cs ->
    last_error cs = Some lst -> (forall c, head cs = Some c -> fle (mean c) item = true) -> fle item (mean lst) = true ->
    exists v, est_q_loop item total lst wsf cs = Ret v.
  Proof.
    induction cs as [|c cs IH]; intros wsf Hi Hn Hl Hh Hle; [discriminate|].
    inversion Hn as [|? ? Hc Hn']; subst. specialize (Hh c eq_refl) as Hc'.
    destruct cs as [|d cs].
    - cbn in Hl. injection Hl as ->. cbn [est_q_loop]. rewrite feq_of_le by auto. destruct (feq (weight lst) f1); eauto.
    - cbn [est_q_loop]. destruct (feq (mean c) item); [destruct (_ && _); eauto|].
      rewrite Hc'. cbn [andb]. destruct (flt item (mean d)) eqn:Ed; [eauto|].
      apply IH; auto. intros d' [= <-].
      inversion Hn'; subst. destruct (@fle_total F FO FL (mean d) item) as [?|HH]; auto. congruence.
  Qed.

  Theorem td_est_q_total (s : tdigest F) (item : F) :
    fisnan item = false -> Forall (fun c => fisnan (mean c) = false) (t_centroids s) ->
    exists v, td_est_q s item = Ret v.
  Proof.
    intros Hi Hn. unfold td_est_q.
    destruct (t_centroids s) as [|c [|d cs]] eqn:E; [eauto|eauto|].
    destruct (flt item (t_min s)); [eauto|]. destruct (fgt item (t_max s)); [eauto|].
    assert (exists lst, last_error (c :: d :: cs) = Some lst) as [lst Hl].
    { clear. revert c d. induction cs as [|e cs IH]; intros c d; [exists d; reflexivity|]. destruct (IH d e) as [x Hx]. exists x. exact Hx. }
    rewrite Hl. cbn [unwrap bind].
    destruct (flt item (mean c)) eqn:E1; [eauto|]. destruct (fgt item (mean lst)) eqn:E2; [eauto|].
    apply est_q_loop_total; auto.
    - intros c' [= <-]. inversion Hn; subst. destruct (@fle_total F FO FL (mean c) item) as [?|HH]; auto. congruence.
    - assert (fisnan (mean lst) = false) as Hlst. { rewrite Forall_forall in Hn. apply Hn. now apply last_error_In. }
      destruct (@fle_total F FO FL item (mean lst)) as [?|HH]; auto. rewrite fgt_flt in E2. congruence.
  Qed.

  (** out-of-range queries, with any number of centroids *)
  Theorem td_est_q_below (s : tdigest F) (item : F) : t_centroids s <> [] -> flt item (t_min s) = true -> td_est_q s item = Ret f0.
  Proof. intros Hne H. unfold td_est_q. destruct (t_centroids s) as [|c [|d cs]]; [congruence| |]; now rewrite H. Qed.
  Theorem td_est_q_above (s : tdigest F) (item : F) : t_centroids s <> [] -> fle (t_min s) (t_max s) = true ->
    flt (t_max s) item = true -> td_est_q s item = Ret f1.
  Proof.
    intros Hne Hm H. unfold td_est_q.
    assert (flt item (t_min s) = false) as H1. { apply fle_not_flt. apply flt_fle. eapply fle_flt_trans; eauto. }
    destruct (t_centroids s) as [|c [|d cs]]; [congruence| |]; now rewrite H1, fgt_flt, H.
  Qed.
End QueryQ.

(* ------------------------------------------------------------------ *)
(** ** Value queries never index out of bounds *)
Section QueryV.
  Context {F : Type} {FO : FloatOps F} {FL : FloatLaws F}.
  Notation cen := (centroid F).

  Lemma fgt_val {x y a b} : fval x = XFin a -> fval y = XFin b -> fgt x y = true <-> (a > b)%R.
  Proof. intros Hx Hy. rewrite fgt_flt, flt_iff, Hx, Hy, xlt_iff. reflexivity. Qed.
  Lemma flt_val {x y a b} : fval x = XFin a -> fval y = XFin b -> flt x y = true <-> (a < b)%R.
  Proof. intros Hx Hy. rewrite flt_iff, Hx, Hy, xlt_iff. reflexivity. Qed.
  Lemma fle_val {x y a b} : fval x = XFin a -> fval y = XFin b -> fle x y = true <-> (a <= b)%R.
  Proof. intros Hx Hy. rewrite fle_iff, Hx, Hy, xle_iff. reflexivity. Qed.
  Lemma feq_val {x y a b} : fval x = XFin a -> fval y = XFin b -> feq x y = true <-> (a = b)%R.
  Proof. intros Hx Hy. rewrite feq_iff, Hx, Hy. split; [intros [[= H] _]; auto|intros ->; split; [auto|discriminate]]. Qed.

  Lemma half_val {x z} : fval x = XFin (IZR z) -> (Z.abs z <= fint)%Z -> fval (fdiv x f2) = XFin (IZR z / 2).
  Proof. intros H Hz. rewrite (fdiv_fin H fval_f2) by lra. now apply frnd_exact, fhalf_exact. Qed.

  (** the loop stops in bounds: [p] is the weight before the suffix *)
  Lemma est_v_loop_total ti t (Ht : fval ti = XFin t) : forall cs zs iters cw p lz,
    wts cs zs -> last_error zs = Some lz -> (0 <= p)%Z -> (2 * (p + sumZ zs) <= fint)%Z ->
    (forall z, head zs = Some z -> fval cw = XFin (IZR p + IZR z / 2) /\ (IZR p + IZR z / 2 <= t)%R) ->
    (t < IZR (p + sumZ zs) - IZR lz / 2)%R -> length cs <= iters ->
    exists v, est_v_loop iters ti cw cs = Ret (Some v).
  Proof.
    induction cs as [|c cs IH]; intros zs iters cw p lz Hw Hl Hp Hs Hh Hlt Hit.
    - inversion Hw; subst. discriminate.
    - inversion Hw as [|? z ? zs' [Hc Hz] Hw']; subst. destruct (Hh z eq_refl) as [Hcw Hcle].
      destruct iters as [|iters]; [cbn in Hit; lia|].
      destruct cs as [|d cs].
      + inversion Hw'; subst. cbn in Hl. injection Hl as <-. exfalso.
        cbn in Hlt. rewrite Z.add_0_r, plus_IZR in Hlt. lra.
      + inversion Hw' as [|? y ? zs Hd' Hw'']; subst. destruct Hd' as [Hd Hy].
        cbn [sumZ fold_right] in Hs, Hlt. fold (sumZ zs) in Hs, Hlt.
        pose proof (sumZ_pos (wts_pos Hw'')) as Hp''.
        assert (fval (fdiv (fadd (weight c) (weight d)) f2) = XFin (IZR (z + y) / 2)) as Hdw.
        { apply half_val; [|lia]. rewrite (fadd_fin Hc Hd), <- plus_IZR. apply frnd_exact, fint_exact. lia. }
        assert (fval (fadd cw (fdiv (fadd (weight c) (weight d)) f2)) = XFin (IZR (p + z) + IZR y / 2)) as Hcw'.
        { rewrite (fadd_fin Hcw Hdw).
          replace (IZR p + IZR z / 2 + IZR (z + y) / 2)%R with (IZR (2 * (p + z) + y) / 2)%R by (rewrite plus_IZR, mult_IZR, !plus_IZR; field).
          replace (IZR (p + z) + IZR y / 2)%R with (IZR (2 * (p + z) + y) / 2)%R by (rewrite plus_IZR, mult_IZR, !plus_IZR; field).
          apply frnd_exact, fhalf_exact. lia. }
        cbn [est_v_loop].
        destruct (fgt (fadd cw (fdiv (fadd (weight c) (weight d)) f2)) ti) eqn:E; [eauto|].
        apply (IH (y :: zs) iters _ (p + z)%Z lz); auto.
        * lia.
        * cbn [sumZ fold_right]. fold (sumZ zs). lia.
        * intros y' [= <-]. split; auto. apply Rnot_gt_le. intros HH. apply (fgt_val Hcw' Ht) in HH. congruence.
        * cbn [sumZ fold_right]. fold (sumZ zs). replace (p + z + (y + sumZ zs))%Z with (p + (z + (y + sumZ zs)))%Z by lia. exact Hlt.
        * cbn [length] in *. lia.
  Qed.

  Lemma last_error_wts cs zs c : wts cs zs -> last_error cs = Some c -> exists z, last_error zs = Some z /\ fval (weight c) = XFin (IZR z) /\ (1 <= z <= sumZ zs)%Z.
  Proof.
    induction 1 as [|a z cs zs [Ha Hz] H IH]; intros Hl; [discriminate|].
    cbn [sumZ fold_right]. fold (sumZ zs).
    destruct H as [|b y cs zs [Hb Hy] H].
    - injection Hl as ->. exists z. cbn. repeat split; auto; lia.
    - destruct (IH Hl) as (y' & A & B & C). exists y'. split; [exact A|]. split; auto. lia.
  Qed.

  Lemma wts_length (cs : list cen) zs : wts cs zs -> length cs = length zs.
  Proof. induction 1; cbn; auto. Qed.

  Theorem td_est_v_total_gen (s : tdigest F) (n : Z) (q : F) (r : R) :
    holds s n -> fval (total_weight s) = XFin (IZR n) -> (2 * n <= fint)%Z -> (n < 2 ^ 64)%Z -> fval q = XFin r -> (0 <= r <= 1)%R ->
    exists v, td_est_v s q = Ret v.
  Proof.
    intros (zs & Hw & Hn) Htot H1 H2 Hq Hr.
    pose proof (sumZ_pos (wts_pos Hw)) as Hpos.
    assert (0 <= IZR n)%R as Hn0 by (apply IZR_le; lia).
    destruct (@frnd_range F FO FL 0 (IZR n) (IZR n * r)) as (t & Ht & Ht1).
    { apply fexact_0. } { apply fint_exact. lia. } { nra. }
    rewrite <- (fmul_fin Htot Hq) in Ht.
    unfold td_est_v. destruct (flt (fmul (total_weight s) q) f1) eqn:E1; [eauto|].
    assert (1 <= t)%R as Ht2.
    { apply Rnot_lt_le. intros HH. apply (flt_val Ht fval_f1) in HH. congruence. }
    assert (t_centroids s <> []) as Hne.
    { intros E. rewrite E in Hw. inversion Hw; subst. cbn in Ht1. lra. }
    destruct (t_centroids s) as [|c cs] eqn:Ec; [congruence|]. cbn [head unwrap bind].
    inversion Hw as [|? z ? zs' [Hc Hz] Hw']; subst.
    assert (1 <= z <= sumZ (z :: zs'))%Z as Hz2. { cbn [sumZ fold_right]. fold (sumZ zs'). pose proof (sumZ_pos (wts_pos Hw')). lia. }
    assert (fval (fdiv (weight c) f2) = XFin (IZR z / 2)) as Hch by (apply half_val; auto; lia).
    destruct (fgt (weight c) f1 && flt (fmul (total_weight s) q) (fdiv (weight c) f2)) eqn:E2; [eauto|].
    assert (IZR z / 2 <= t)%R as Hzt.
    { apply andb_false_iff in E2 as [E2|E2].
      - assert (IZR z <= 1)%R; [|lra]. apply Rnot_gt_le. intros HH. apply (fgt_val Hc fval_f1) in HH. congruence.
      - apply Rnot_lt_le. intros HH. apply (flt_val Ht Hch) in HH. congruence. }
    destruct (fgt (fmul (total_weight s) q) (fsub (total_weight s) f1)) eqn:E3; [eauto|].
    assert (fval (fsub (total_weight s) f1) = XFin (IZR (sumZ (z :: zs') - 1))) as Hm1.
    { rewrite (fsub_fin Htot fval_f1). rewrite minus_IZR. rewrite <- minus_IZR. apply frnd_exact, fint_exact. lia. }
    assert (t <= IZR (sumZ (z :: zs') - 1))%R as Ht3.
    { apply Rnot_gt_le. intros HH. apply (fgt_val Ht Hm1) in HH. congruence. }
    assert (exists lst, last_error (c :: cs) = Some lst) as [lst Hl].
    { clear. revert c. induction cs as [|e cs IH]; intros c; [exists c; reflexivity|]. destruct (IH e) as [x Hx]. exists x. exact Hx. }
    rewrite Hl. cbn [unwrap bind].
    destruct (last_error_wts Hw Hl) as (lz & Hlz & Hlv & Hlb).
    assert (fval (fdiv (weight lst) f2) = XFin (IZR lz / 2)) as Hlh by (apply half_val; auto; lia).
    destruct (fgt (weight lst) f1 && fle (fsub (total_weight s) (fmul (total_weight s) q)) (fdiv (weight lst) f2)) eqn:E4; [eauto|].
    assert (t < IZR (sumZ (z :: zs')) - IZR lz / 2)%R as Ht4.
    { rewrite minus_IZR in Ht3. apply andb_false_iff in E4 as [E4|E4].
      - assert (IZR lz <= 1)%R; [|lra]. apply Rnot_gt_le. intros HH. apply (fgt_val Hlv fval_f1) in HH. congruence.
      - apply Rnot_ge_lt. intros HH.
        assert (xle (fval (fsub (total_weight s) (fmul (total_weight s) q))) (fval (fdiv (weight lst) f2))) as HX.
        { rewrite (fsub_fin Htot Ht), Hlh. rewrite <- (frnd_exact (fval_exact Hlh)). apply frnd_mono. lra. }
        apply fle_iff in HX. congruence. }
    unfold to_usize. rewrite (ftoZ_fin Htot).
    2:{ split; [apply (IZR_lt (-1)); lia|]. apply IZR_lt. lia. }
    cbn [unwrap liftM bind]. rewrite Ztrunc_IZR.
    destruct (@est_v_loop_total (fmul (total_weight s) q) t Ht (c :: cs) (z :: zs') (Z.to_nat (sumZ (z :: zs'))) (fdiv (weight c) f2) 0 lz) as [v Hv]; auto; try lia.
    - intros z' [= <-]. rewrite Rplus_0_l. split; auto.
    - rewrite (wts_length Hw). pose proof (sumZ_pos (wts_pos Hw)). lia.
    - rewrite Hv. cbn [bind]. eauto.
  Qed.

  Theorem td_est_v_total (s : tdigest F) (n : Z) (q : F) (r : R) :
    holds s n -> (2 * n <= fint)%Z -> (n <= 2 ^ 53)%Z -> fval q = XFin r -> (0 <= r <= 1)%R ->
    exists v, td_est_v s q = Ret v.
  Proof.
    intros H H1 H2 Hq Hr. apply (@td_est_v_total_gen s n q r); auto; [|lia].
    destruct H as (zs & Hw & <-). pose proof (sumZ_pos (wts_pos Hw)). unfold total_weight. apply sum_weights_int; auto; lia.
  Qed.
End QueryV.

(* ------------------------------------------------------------------ *)
(** ** Whole histories on bounded data *)
Section Total.
  Context {F : Type} {FO : FloatOps F} {FL : FloatLaws F}.
  Notation cen := (centroid F).
  Variable cfg : tcfg F.
  Hypothesis Hlib : lib_ok cfg.
  Variables (B : R) (N : Z).
  Hypothesis HB : forall k, (Z.abs k <= N)%Z -> fexact (IZR k * B).
  Hypothesis HB0 : (0 <= B)%R.
  Hypothesis HN : (1 <= N)%Z /\ (2 * N <= fint)%Z /\ (N <= 2 ^ 53)%Z.

  Definition bnd (x : F) : Prop := exists r, fval x = XFin r /\ (Rabs r <= B)%R.

  Lemma bnd_nn x : bnd x -> fisnan x = false.
  Proof. intros (r & H & _). apply fisnan_false. rewrite H. discriminate. Qed.

  Lemma agg_s_bnd g zs : wts g zs -> g <> [] -> Forall (fun c => bnd (mean c)) g -> (sumZ zs <= N)%Z ->
    exists r, fval (agg_s g) = XFin r /\ (Rabs r <= IZR (sumZ zs) * B)%R.
  Proof.
    intros H Hne Hb Hs. destruct H as [|c z g zs [Hc Hz] H]; [congruence|]. cbn [agg_s].
    inversion Hb as [|? ? (m & Hm & Hm1) Hb']; subst. clear Hne Hb.
    cbn [sumZ fold_right] in *. fold (sumZ zs) in *.
    assert (forall c z m, fval (weight c) = XFin (IZR z) -> fval (mean c) = XFin m -> (Rabs m <= B)%R -> (1 <= z <= N)%Z ->
            exists r, fval (fmul (mean c) (weight c)) = XFin r /\ (Rabs r <= IZR z * B)%R) as Hmul.
    { clear -HB HB0. intros c z m Hc Hm Hm1 Hz. rewrite (fmul_fin Hm Hc).
      assert (1 <= IZR z)%R as Hz1 by (apply IZR_le; lia).
      destruct (@frnd_range F FO FL (IZR (- z) * B) (IZR z * B) (m * IZR z)) as (r & Hr & Hr1).
      { apply HB. lia. } { apply HB. lia. }
      { rewrite opp_IZR. apply Rabs_le_inv in Hm1. nra. }
      exists r. split; auto. apply Rabs_le. rewrite opp_IZR in Hr1. lra. }
    pose proof (sumZ_pos (wts_pos H)) as Hp0.
    destruct (Hmul c z m Hc Hm Hm1 ltac:(lia)) as (a & Ha & Ha1).
    revert Ha Ha1 Hz Hs. generalize (fmul (mean c) (weight c)) as x. intros x. clear Hc Hm Hm1 Hp0. revert x a z.
    induction H as [|d y g zs [Hd Hy] H IH]; intros x a z Hx Ha Hz Hs; cbn [fold_left].
    - exists a. split; auto. cbn. now rewrite Z.add_0_r.
    - inversion Hb' as [|? ? (m' & Hm' & Hm1') Hb'']; subst.
      cbn [sumZ fold_right] in Hs. fold (sumZ zs) in Hs. pose proof (sumZ_pos (wts_pos H)) as Hp.
      destruct (Hmul d y m' Hd Hm' Hm1' ltac:(lia)) as (b & Hb & Hb1).
      destruct (@frnd_range F FO FL (IZR (- (z + y)) * B) (IZR (z + y) * B) (a + b)) as (r & Hr & Hr1).
      { apply HB. lia. } { apply HB. lia. }
      { rewrite opp_IZR, plus_IZR. apply Rabs_le_inv in Ha. apply Rabs_le_inv in Hb1. lra. }
      destruct (IH Hb'' (fadd x (fmul (mean d) (weight d))) r (z + y)%Z) as (r' & R1 & R2).
      + now rewrite (fadd_fin Hx Hb).
      + apply Rabs_le. rewrite opp_IZR in Hr1. lra.
      + lia.
      + lia.
      + exists r'. split; auto. cbn [sumZ fold_right]. fold (sumZ zs). replace (z + (y + sumZ zs))%Z with (z + y + sumZ zs)%Z by lia. exact R2.
  Qed.

  Lemma agg_bnd g zs : wts g zs -> g <> [] -> Forall (fun c => bnd (mean c)) g -> (sumZ zs <= N)%Z -> bnd (mean (agg g)).
  Proof.
    intros H Hne Hb Hs. destruct (agg_s_bnd H Hne Hb Hs) as (r & Hr & Hr1).
    pose proof (agg_w_int H Hne) as Hw. destruct HN as (N1 & N2 & N3). specialize (Hw ltac:(lia)).
    assert (1 <= sumZ zs)%Z as Hz.
    { pose proof (sumZ_pos (wts_pos H)) as Hp. destruct H; [congruence|]. cbn [length] in Hp. lia. }
    assert (1 <= IZR (sumZ zs))%R as Hz1 by (apply IZR_le; lia).
    cbn [agg mean].
    destruct (@frnd_range F FO FL (IZR (-1) * B) (IZR 1 * B) (r / IZR (sumZ zs))) as (m & Hm & Hm1).
    { apply HB. lia. } { apply HB. lia. }
    { apply Rabs_le_inv in Hr1. split.
      - apply Rmult_le_reg_r with (IZR (sumZ zs)); [lra|]. replace (r / IZR (sumZ zs) * IZR (sumZ zs))%R with r by (field; lra). lra.
      - apply Rmult_le_reg_r with (IZR (sumZ zs)); [lra|]. replace (r / IZR (sumZ zs) * IZR (sumZ zs))%R with r by (field; lra). lra. }
    exists m. split; [|apply Rabs_le; lra]. rewrite (fdiv_fin Hr Hw) by lra. exact Hm.
  Qed.

  Definition good (s : tdigest F) (n : Z) : Prop := holds s n /\ Forall (fun c => bnd (mean c)) (t_centroids s).

  Lemma add_centroid_buffer_good s n buf zb : good s n -> wts buf zb -> Forall (fun c => bnd (mean c)) buf -> (n + sumZ zb <= N)%Z ->
    always (fun s' => good s' (n + sumZ zb)) (add_centroid_buffer cfg s buf).
  Proof.
    intros [(zs & Hz & Hn) Hg] Hb Hbb Hs. destruct HN as (N1 & N2 & N3).
    assert (Forall (fun c => bnd (mean c)) (buf ++ t_centroids s)) as Hall by (apply Forall_app; auto).
    assert (buf ++ t_centroids s = [] \/ buf ++ t_centroids s <> []) as [E|Hne] by (destruct (buf ++ t_centroids s); [left|right]; congruence).
    - rewrite add_centroid_buffer_nil by auto. apply app_eq_nil in E as [-> E]. inversion Hb; subst. cbn.
      split; auto. exists zs. split; auto. lia.
    - destruct (@add_centroid_buffer_spec F FO cfg Hlib s buf Hne) as (sorted & gs & first & lst & A1 & A2 & A3 & A4 & A5 & A6 & ->).
      { right. eapply Forall_impl; [|exact Hall]. intros c Hc. now apply bnd_nn. }
      cbn [always].
      assert (wts (buf ++ t_centroids s) (zb ++ zs)) as HW by (apply Forall2_app; auto).
      destruct (wts_perm (Permutation_sym A1) HW) as (zo & H1 & H2).
      pose proof (sumZ_perm H2) as E. rewrite sumZ_app in E. rewrite <- A6 in H1.
      destruct (@agg_wts F FO FL gs zo) as (zss & B1 & B2 & B3 & B4); auto.
      { eapply merges_ne; eauto. } { lia. }
      split; [exists (map sumZ zss); split; auto; lia|]. cbn [t_centroids].
      assert (Forall (fun c => bnd (mean c)) (concat gs)) as Hall'.
      { rewrite A6. eapply Permutation_Forall; [|exact Hall]. now symmetry. }
      assert (Forall (fun g => g <> []) gs) as Hgne by (eapply merges_ne; eauto).
      assert (sumZ (concat zss) <= N)%Z as HsN by (rewrite B1; lia).
      clear -HB HB0 HN B2 Hall' Hgne HsN. induction B2 as [|g z gs zss Hg B2 IH]; cbn [map]; [constructor|].
      cbn [concat] in *. apply Forall_app in Hall' as [P1 P2]. inversion Hgne; subst. rewrite sumZ_app in HsN.
      assert (0 <= sumZ z)%Z by (pose proof (sumZ_pos (wts_pos Hg)); lia).
      assert (0 <= sumZ (concat zss))%Z.
      { assert (Forall (fun z => (1 <= z)%Z) (concat zss)) as HH; [|pose proof (sumZ_pos HH); lia].
        clear -B2. induction B2; cbn; [constructor|]. apply Forall_app. split; auto. eapply wts_pos; eauto. }
      constructor; [eapply agg_bnd; eauto; lia|]. apply IH; auto. lia.
  Qed.

  Definition td_ok_op (o : op F) : Prop :=
    match o with
    | Add x => bnd x
    | AddBuf l => Forall bnd l
    | Quant v => fisnan v = false
    | Val q => exists r, fval q = XFin r /\ (0 <= r <= 1)%R
    end.

  Lemma exec_always_len (P : tdigest F -> list F -> Prop) :
    (forall s its o, td_ok_op o -> (Z.of_nat (length (its ++ items_of [o])) <= N)%Z -> P s its ->
       always (fun r => P (fst r) (its ++ items_of [o])) (step (t_digest cfg) s o)) ->
    forall ops s its, Forall td_ok_op ops -> (Z.of_nat (length (its ++ items_of ops)) <= N)%Z -> P s its ->
      always (fun r => P (fst r) (its ++ items_of ops)) (exec (t_digest cfg) s ops).
  Proof.
    intros Hstep. induction ops as [|o ops IH]; intros s its HQ HL HP.
    - cbn. now rewrite app_nil_r.
    - inversion HQ; subst. rewrite items_of_cons, app_assoc in HL. cbn [exec].
      eapply always_bind; [apply Hstep; eauto; rewrite !app_length in *; lia|].
      intros [s' a] H. eapply always_bind; [apply IH; [assumption|exact HL|exact H]|].
      intros [s'' b] H'. cbn [fst whenever always] in *. rewrite items_of_cons, app_assoc. exact H'.
  Qed.

  Theorem td_history_total ops : Forall td_ok_op ops -> (Z.of_nat (length (items_of ops)) <= N)%Z ->
    always (fun r => good (fst r) (Z.of_nat (length (items_of ops)))) (exec (t_digest cfg) td_new ops).
  Proof.
    intros Hok Hlen. destruct HN as (N1 & N2 & N3).
    refine (@exec_always_len (fun s its => good s (Z.of_nat (length its))) _ ops td_new [] Hok Hlen _).
    - intros s its o Ho HL HI. destruct o as [x|l|v|q]; cbn [step items_of] in *.
      + eapply always_bind with (P := fun s' => good s' (Z.of_nat (length (its ++ [x])))); [|cbn; auto].
        cbn [d_add t_digest]. unfold td_add. destruct (@unit_wts F FO FL [x]) as [U1 U2]. cbn [map length repeat] in U1.
        rewrite app_length in *. cbn [length] in *.
        eapply always_mono; [apply add_centroid_buffer_good with (1 := HI) (2 := U1)|].
        * constructor; [exact Ho|constructor].
        * cbn. lia.
        * intros s'. cbn [sumZ fold_right]. replace (Z.of_nat (length its) + (1 + 0))%Z with (Z.of_nat (length its + 1)) by lia. auto.
      + rewrite app_nil_r in *. eapply always_bind with (P := fun s' => good s' (Z.of_nat (length (its ++ l)))); [|cbn; auto].
        cbn [d_add_buffer t_digest]. unfold td_add_buffer. destruct (@unit_wts F FO FL l) as [U1 U2].
        rewrite app_length in *.
        eapply always_mono; [apply add_centroid_buffer_good with (1 := HI) (2 := U1)|].
        * apply Forall_map. exact Ho.
        * rewrite U2. lia.
        * intros s'. rewrite U2. replace (Z.of_nat (length its) + Z.of_nat (length l))%Z with (Z.of_nat (length its + length l)) by lia. auto.
      + rewrite app_nil_r in *. cbn [d_est_q t_digest]. rewrite bind_assoc.
        destruct (@td_est_q_total F FO FL s v) as [a ->]; auto.
        { eapply Forall_impl; [|exact (proj2 HI)]. intros c Hc. now apply bnd_nn. }
      + rewrite app_nil_r in *. cbn [d_est_v t_digest]. rewrite bind_assoc. destruct Ho as (r & Hr & Hr1).
        destruct (@td_est_v_total F FO FL s (Z.of_nat (length its)) q r) as [a ->]; auto; try lia. apply HI.
    - split; [|constructor]. exists []. split; [constructor|reflexivity].
  Qed.
End Total.
