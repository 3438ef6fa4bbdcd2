From Coq Require Import List Arith ZArith Lia Bool Permutation Sorted Reals Lra.
From Flocq Require Import Core.
From Verif Require Import Base Floats XReal Digest Spec FloatFacts History.
Set Implicit Arguments.

Lemma ZnearestA_ge n x : (IZR n <= x)%R -> (n <= ZnearestA x)%Z.
Proof.
  intros H. pose proof (@Zrnd_IZR ZnearestA _ n) as E. rewrite <- E.
  apply Zrnd_le; [typeclasses eauto|assumption].
Qed.
Lemma ZnearestA_le n x : (x <= IZR n)%R -> (ZnearestA x <= n)%Z.
Proof.
  intros H. pose proof (@Zrnd_IZR ZnearestA _ n) as E. rewrite <- E.
  apply Zrnd_le; [typeclasses eauto|assumption].
Qed.

Section Linear.
  Context {F : Type} {FO : FloatOps F}.
  Notation LD := (linear_digest F).

  Lemma linear_est_v_perm l q : whenever (fun r => Permutation l (fst r)) (linear_est_v l q).
  Proof.
    unfold linear_est_v. eapply whenever_bind; [apply whenever_true|]. intros z _.
    eapply whenever_bind.
    { apply sort_by_key_whenever with (Q := fun l' => Permutation l l'). auto. }
    intros l' HP. destruct (Z.eqb _ _).
    - eapply whenever_bind; [apply whenever_true|]. intros x _. exact HP.
    - destruct (Z.ltb _ _); [|exact I]. eapply whenever_bind; [apply whenever_true|]. intros x _. exact HP.
  Qed.

  Lemma linear_step_inv (s its : list F) (o : op F) :
    Permutation its s -> whenever (fun r => @Permutation F (its ++ items_of [o]) (fst r)) (step LD s o).
  Proof.
    intros HP. pose proof (app_nil_r its) as E.
    destruct o as [x|l|v|q]; cbn [step LD d_add d_add_buffer d_est_q d_est_v bind whenever fst items_of linear_digest].
    - exact (Permutation_app_tail [x] HP).
    - pose proof (app_nil_r l) as El. rewrite El. exact (Permutation_app_tail l HP).
    - rewrite E. exact HP.
    - rewrite E. eapply whenever_bind; [apply linear_est_v_perm|].
      intros [s' a] H. cbn in *. exact (perm_trans HP H).
  Qed.

  Lemma linear_history (ops : list (op F)) :
    whenever (fun r => Permutation (items_of ops) (fst r)) (exec LD linear_new ops).
  Proof.
    refine (@exec_whenever F LD (fun s its => @Permutation F its s) _ ops linear_new (@nil F) (@perm_nil F)).
    intros; now apply linear_step_inv.
  Qed.

  Lemma linear_count_ok (ops : list (op F)) :
    whenever (fun r => Permutation (items_of ops) (fst r) /\
                       d_count LD (fst r) = Ret (Z.of_nat (length (items_of ops))))
             (exec LD linear_new ops).
  Proof.
    eapply whenever_mono; [apply linear_history|]. intros [s a] H. split; auto.
    cbn in *. now rewrite (Permutation_length H).
  Qed.

  Lemma linear_est_q_perm l l' v : Permutation l l' -> linear_est_q l v = linear_est_q l' v.
  Proof.
    intros H. unfold linear_est_q.
    fold (n_lt l v). fold (n_lt l' v). fold (n_eq l v). fold (n_eq l' v).
    now rewrite (n_lt_perm v H), (n_eq_perm v H), (Permutation_length H).
  Qed.

  Lemma linear_est_q_hist ops1 ops2 v :
    Permutation (items_of ops1) (items_of ops2) ->
    whenever (fun r1 => whenever (fun r2 =>
      linear_est_q (fst r1) v = linear_est_q (fst r2) v) (exec LD linear_new ops2)) (exec LD linear_new ops1).
  Proof.
    intros HP. eapply whenever_mono; [apply linear_history|]. intros [s1 a1] H1.
    eapply whenever_mono; [apply linear_history|]. intros [s2 a2] H2. cbn in *.
    apply linear_est_q_perm. rewrite <- H1, <- H2. exact HP.
  Qed.

  Context {FL : FloatLaws F}.

  Lemma mid_rank_bounds l v : (0 <= mid_rank l v <= INR (length l))%R.
  Proof.
    unfold mid_rank.
    pose proof (pos_INR (n_lt l v)). pose proof (pos_INR (n_eq l v)).
    pose proof (n_le_lt_eq l v). pose proof (n_le_length l v).
    assert (INR (n_lt l v) + INR (n_eq l v) <= INR (length l))%R.
    { rewrite <- plus_INR. apply le_INR. lia. }
    destruct (2 <=? n_eq l v); lra.
  Qed.

  Lemma linear_est_q_exact l v :
    l <> [] -> (2 * Z.of_nat (length l) <= fint)%Z ->
    fval (linear_est_q l v) = frnd (mid_rank l v / INR (length l)).
  Proof.
    intros Hne Hlen. unfold linear_est_q. fold (n_lt l v). fold (n_eq l v).
    pose proof (n_le_lt_eq l v) as He. pose proof (n_le_length l v) as Hl.
    assert (0 < length l) as Hpos by (destruct l; cbn; [congruence|lia]).
    assert (INR (length l) <> 0)%R as Hl0 by (apply not_0_INR; lia).
    assert (forall k, k <= length l -> fval (fof_nat k) = XFin (INR k)) as Hk.
    { intros k Hk. apply fval_nat. lia. }
    assert (fle (fof_nat (n_eq l v)) f1 = negb (2 <=? n_eq l v)) as ->.
    { apply eq_true_iff_eq. rewrite fle_iff, fval_f1, fval_nat by lia. rewrite xle_iff; cbn [xle_d].
      destruct (Nat.leb_spec 2 (n_eq l v)) as [H|H]; cbn [negb].
      - split; [|discriminate]. intros H'. apply le_INR in H. cbn in H. exfalso. lra.
      - split; auto. intros _. apply (le_INR _ 1). lia. }
    unfold mid_rank. destruct (2 <=? n_eq l v); cbn [negb].
    - assert (fval (fdiv (fof_nat (n_eq l v)) f2) = XFin (INR (n_eq l v) / 2)) as Hh.
      { rewrite (fdiv_fin (Hk (n_eq l v) ltac:(lia)) fval_f2) by lra.
        apply frnd_exact. rewrite INR_IZR_INZ. apply fhalf_exact. lia. }
      assert (fval (fadd (fof_nat (n_lt l v)) (fdiv (fof_nat (n_eq l v)) f2))
              = XFin (INR (n_lt l v) + INR (n_eq l v) / 2)) as Ha.
      { rewrite (fadd_fin (Hk (n_lt l v) ltac:(lia)) Hh).
        apply frnd_exact.
        replace (INR (n_lt l v) + INR (n_eq l v) / 2)%R with (IZR (2 * Z.of_nat (n_lt l v) + Z.of_nat (n_eq l v)) / 2)%R.
        - apply fhalf_exact. lia.
        - rewrite plus_IZR, mult_IZR, <- !INR_IZR_INZ. field. }
      now rewrite (fdiv_fin Ha (Hk (length l) ltac:(lia)) Hl0).
    - rewrite (fdiv_fin (Hk (n_lt l v) ltac:(lia)) (Hk (length l) ltac:(lia)) Hl0).
      now rewrite Rplus_0_r.
  Qed.

  Lemma linear_est_q_range l v :
    l <> [] -> (2 * Z.of_nat (length l) <= fint)%Z ->
    exists r, fval (linear_est_q l v) = XFin r /\ (0 <= r <= 1)%R.
  Proof.
    intros Hne Hlen. rewrite linear_est_q_exact by assumption.
    apply frnd_range; [apply fexact_0|apply fexact_1|].
    pose proof (mid_rank_bounds l v) as [H0 H1].
    assert (0 < INR (length l))%R. { apply lt_0_INR. destruct l; cbn; [congruence|lia]. }
    split.
    - apply Rmult_le_pos; auto. apply Rlt_le, Rinv_0_lt_compat; auto.
    - apply Rmult_le_reg_r with (INR (length l)); auto. unfold Rdiv.
      rewrite Rmult_assoc, Rinv_l by lra. lra.
  Qed.

  Lemma mid_rank_mono l v1 v2 : fle v1 v2 = true -> (mid_rank l v1 <= mid_rank l v2)%R.
  Proof.
    intros H. rewrite fle_or in H. apply orb_true_iff in H as [H|H].
    - apply (n_le_lt_mono l) in H. rewrite n_le_lt_eq in H. apply le_INR in H. rewrite plus_INR in H.
      unfold mid_rank. pose proof (pos_INR (n_eq l v1)). pose proof (pos_INR (n_eq l v2)).
      destruct (2 <=? n_eq l v1), (2 <=? n_eq l v2); lra.
    - apply feq_iff in H as [H Hn].
      assert (n_lt l v1 = n_lt l v2) as E1.
      { unfold n_lt. f_equal. apply filter_ext. intros x. unfold flt. now rewrite !fcmp_val, H. }
      assert (n_eq l v1 = n_eq l v2) as E2.
      { unfold n_eq. f_equal. apply filter_ext. intros x. unfold feq. now rewrite !fcmp_val, H. }
      unfold mid_rank. rewrite E1, E2. apply Rle_refl.
  Qed.

  Lemma linear_est_q_mono l v1 v2 :
    l <> [] -> (2 * Z.of_nat (length l) <= fint)%Z -> fle v1 v2 = true ->
    fle (linear_est_q l v1) (linear_est_q l v2) = true.
  Proof.
    intros Hne Hlen H. apply fle_iff. rewrite !linear_est_q_exact by assumption.
    apply frnd_mono. apply Rmult_le_compat_r.
    - apply Rlt_le, Rinv_0_lt_compat, lt_0_INR. destruct l; cbn; [congruence|lia].
    - now apply mid_rank_mono.
  Qed.

  (** index computed by the value query: rounded product, rounded to an integer, capped *)
  Definition val_index (n : nat) (p : R) : nat := Nat.min (Z.to_nat (ZnearestA p)) (n - 1).

  Lemma last_some {A} (l : list A) a : last (map (@Some A) (l ++ [a])) None = Some a.
  Proof. rewrite map_app. cbn. apply last_last. Qed.

  Lemma linear_est_v_ok l q r :
    l <> [] -> no_nan l -> (Z.of_nat (length l) <= fint)%Z -> (Z.of_nat (length l) < 2 ^ 64)%Z ->
    fval q = XFin r -> (0 <= r <= 1)%R ->
    exists p, frnd (r * INR (length l)) = XFin p /\ (0 <= p <= INR (length l))%R /\
    always (fun res => Permutation l (fst res) /\ order_stat l (val_index (length l) p) (snd res)) (linear_est_v l q).
  Proof.
    intros Hne Hnn Hlen H64 Hq [Hr0 Hr1].
    assert (0 < length l) as Hpos by (destruct l; cbn; [congruence|lia]).
    assert (0 < INR (length l))%R as HposR by (apply lt_0_INR; lia).
    destruct (@frnd_range F FO FL 0 (INR (length l)) (r * INR (length l))) as (p & Hp & Hp0 & Hp1).
    { apply fexact_0. } { now apply fexact_nat. } { nra. }
    exists p. split; [exact Hp|]. split; [lra|].
    unfold linear_est_v.
    assert (0 <= ZnearestA p <= Z.of_nat (length l))%Z as HzA.
    { split; [apply ZnearestA_ge | apply ZnearestA_le; rewrite <- INR_IZR_INZ]; assumption. }
    assert (ftoZ (fround (fmul q (fof_nat (length l)))) = Some (ZnearestA p)) as ->.
    { assert (fval (fmul q (fof_nat (length l))) = XFin p) as H1.
      { rewrite <- Hp. apply fmul_fin; auto. now apply fval_nat. }
      apply fround_fin in H1. rewrite (ftoZ_fin H1).
      - f_equal. apply Ztrunc_IZR.
      - split.
        + apply IZR_lt. lia.
        + apply IZR_lt. lia. }
    cbn [unwrap bind].
    eapply always_bind.
    { apply sort_by_key_ok with (Q := fun l' => Permutation l l' /\ StronglySorted (kle (fun x => x)) l').
      - exact Hnn. - auto. }
    intros l' [HP HS]. rewrite <- (Permutation_length HP).
    assert (no_nan l') as Hnn' by (eapply Permutation_Forall; eauto).
    assert (forall i x, order_stat l' i x -> order_stat l i x) as Hos.
    { intros i x (A & B). split.
      - eapply Permutation_in; [symmetry; exact HP|exact A].
      - rewrite (n_lt_perm x HP), (n_le_perm x HP). exact B. }
    destruct (Z.eqb_spec (ZnearestA p) (Z.of_nat (length l))) as [E|E].
    - destruct (exists_last (l := l')) as (l0 & a & ->).
      { intros ->. apply Permutation_sym, Permutation_nil in HP. congruence. }
      rewrite last_some. cbn [unwrap bind always fst snd]. split; [exact HP|].
      apply Hos. apply sorted_nth_order_stat; auto.
      unfold val_index. rewrite E, Nat2Z.id, Nat.min_r by lia.
      rewrite (Permutation_length HP), app_length. cbn.
      replace (length l0 + 1 - 1) with (length l0) by lia.
      rewrite nth_error_app2, Nat.sub_diag by lia. reflexivity.
    - destruct (Z.ltb_spec (ZnearestA p) (Z.of_nat (length l))) as [E'|E']; [|lia].
      unfold index. destruct (nth_error l' (Z.to_nat (ZnearestA p))) as [x|] eqn:Ex.
      + cbn [unwrap bind always fst snd]. split; [exact HP|]. apply Hos.
        unfold val_index. rewrite Nat.min_l by lia. now apply sorted_nth_order_stat.
      + apply nth_error_None in Ex. rewrite <- (Permutation_length HP) in Ex. lia.
  Qed.

  (** the same from any history *)
  Lemma linear_hist_est_v ops q r :
    items_of ops <> [] -> no_nan (items_of ops) -> (Z.of_nat (length (items_of ops)) <= fint)%Z ->
    (Z.of_nat (length (items_of ops)) < 2 ^ 64)%Z ->
    fval q = XFin r -> (0 <= r <= 1)%R ->
    exists p, frnd (r * INR (length (items_of ops))) = XFin p /\ (0 <= p <= INR (length (items_of ops)))%R /\
    whenever (fun res => always (fun res' =>
       order_stat (items_of ops) (val_index (length (items_of ops)) p) (snd res')) (d_est_v LD (fst res) q))
      (exec LD linear_new ops).
  Proof.
    intros Hne Hnn H1 H2 Hq Hr.
    destruct (@linear_est_v_ok _ q r Hne Hnn H1 H2 Hq Hr) as (p & Hp & Hp' & _).
    exists p. split; [exact Hp|]. split; [exact Hp'|].
    eapply whenever_mono; [apply linear_history|]. intros [s a] HP. cbn [fst] in *.
    assert (s <> []) as Hs.
    { intros ->. apply Permutation_sym, Permutation_nil in HP. congruence. }
    assert (no_nan s) as Hs' by (eapply Permutation_Forall; eauto).
    destruct (@linear_est_v_ok s q r) as (p' & Hp2 & _ & Ha); auto.
    { now rewrite <- (Permutation_length HP). } { now rewrite <- (Permutation_length HP). }
    rewrite <- (Permutation_length HP) in *. rewrite Hp in Hp2. injection Hp2 as <-.
    eapply always_mono; [exact Ha|]. intros [s' x] [_ (A & B)]. cbn in *. split.
    - eapply Permutation_in; [symmetry; exact HP|exact A].
    - now rewrite (n_lt_perm x HP), (n_le_perm x HP).
  Qed.

  (** monotone in the quantile *)
  Lemma linear_est_v_mono l q1 q2 r1 r2 :
    l <> [] -> no_nan l -> (Z.of_nat (length l) <= fint)%Z -> (Z.of_nat (length l) < 2 ^ 64)%Z ->
    fval q1 = XFin r1 -> fval q2 = XFin r2 -> (0 <= r1 <= r2)%R -> (r2 <= 1)%R ->
    always (fun a1 => always (fun a2 => fle (snd a1) (snd a2) = true) (linear_est_v l q2)) (linear_est_v l q1).
  Proof.
    intros Hne Hnn H1 H2 Hq1 Hq2 Hr Hr2.
    destruct (@linear_est_v_ok l q1 r1) as (p1 & Hp1 & _ & A1); auto; [lra|].
    destruct (@linear_est_v_ok l q2 r2) as (p2 & Hp2 & _ & A2); auto; [lra|].
    eapply always_mono; [exact A1|]. intros [s1 x1] [_ O1].
    eapply always_mono; [exact A2|]. intros [s2 x2] [_ O2]. cbn [snd] in *.
    eapply order_stat_mono; [exact Hnn| |exact O1|exact O2].
    unfold val_index.
    assert (p1 <= p2)%R.
    { assert (xle (frnd (r1 * INR (length l))) (frnd (r2 * INR (length l)))) as Hm.
      { apply frnd_mono. apply Rmult_le_compat_r; [apply pos_INR|lra]. }
      rewrite Hp1, Hp2, xle_iff in Hm. exact Hm. }
    assert (ZnearestA p1 <= ZnearestA p2)%Z by (apply Zrnd_le; [typeclasses eauto|assumption]).
    assert (Z.to_nat (ZnearestA p1) <= Z.to_nat (ZnearestA p2)) by lia.
    lia.
  Qed.

  (** admissible calls: no NaN items, value queries only on a non-empty digest with a quantile in [0,1] *)
  Definition lin_ok (its : list F) (o : op F) : Prop :=
    match o with
    | Add x => fisnan x = false
    | AddBuf l => no_nan l
    | Quant _ => True
    | Val q => its <> [] /\ exists r, fval q = XFin r /\ (0 <= r <= 1)%R
    end.

  Lemma linear_never_panics_gen ops : forall s its,
    no_nan its -> Permutation its s -> ok_hist lin_ok its ops ->
    (Z.of_nat (length (its ++ items_of ops)) <= fint)%Z -> (Z.of_nat (length (its ++ items_of ops)) < 2 ^ 64)%Z ->
    always (fun r => Permutation (its ++ items_of ops) (fst r)) (exec LD s ops).
  Proof.
    induction ops as [|o ops IH]; intros s its Hnn HP Hok HB1 HB2.
    - cbn. now rewrite app_nil_r.
    - destruct Hok as [Ho Hok].
      rewrite (items_of_cons o ops), app_assoc in HB1, HB2 |- *.
      assert (always (fun r => Permutation (its ++ items_of [o]) (fst r)) (step LD s o)) as Hstep.
      { apply (linear_step_inv o) in HP as Hw.
        enough (always (fun _ => True) (step LD s o)) as Ha.
        { eapply always_mono; [eapply always_whenever_and; [exact Ha|exact Hw]|]. intros r0 Hr0; exact (proj2 Hr0). }
        destruct o as [x|l|v|q]; cbn; auto.
        destruct Ho as [Hne (r & Hq & Hr)].
        assert (s <> []).
        { intros ->. apply Permutation_sym, Permutation_nil in HP. congruence. }
        assert (no_nan s) by (eapply Permutation_Forall; eauto).
        pose proof (Permutation_length HP) as HL. rewrite !app_length in HB1, HB2.
        destruct (@linear_est_v_ok s q r) as (p & _ & _ & Ha); auto; try lia.
        eapply always_bind; [exact Ha|]. intros [s' a] _. exact Logic.I. }
      cbn [exec]. eapply always_bind; [exact Hstep|]. intros [s' a] HP'. cbn [fst] in HP'.
      eapply always_bind.
      + apply IH with (its := its ++ items_of [o]); auto.
        unfold no_nan in *. apply Forall_app. split; auto.
        destruct o as [x|l|v|q]; cbn in *; rewrite ?app_nil_r; auto.
      + intros [s'' b] H. exact H.
  Qed.

  Lemma linear_never_panics ops :
    ok_hist lin_ok [] ops -> (Z.of_nat (length (items_of ops)) <= fint)%Z ->
    (Z.of_nat (length (items_of ops)) < 2 ^ 64)%Z ->
    always (fun r => Permutation (items_of ops) (fst r)) (exec LD linear_new ops).
  Proof.
    intros H1 H2 H3. exact (@linear_never_panics_gen ops [] [] (Forall_nil _) (@perm_nil F) H1 H2 H3).
  Qed.

  Lemma perm_nonnil {A} (l l' : list A) : Permutation l l' -> l <> [] -> l' <> [].
  Proof. intros HP H ->. apply Permutation_sym, Permutation_nil in HP. congruence. Qed.

  Lemma mid_rank_perm l l' v : Permutation l l' -> mid_rank l v = mid_rank l' v.
  Proof. intros H. unfold mid_rank. now rewrite (n_lt_perm v H), (n_eq_perm v H). Qed.

  Lemma linear_hist_est_q ops v :
    items_of ops <> [] -> (2 * Z.of_nat (length (items_of ops)) <= fint)%Z ->
    whenever (fun r => fval (linear_est_q (fst r) v)
                       = frnd (mid_rank (items_of ops) v / INR (length (items_of ops))))
             (exec LD linear_new ops).
  Proof.
    intros H1 H2. eapply whenever_mono; [apply linear_history|]. intros [s a] HP; cbn [fst] in *.
    rewrite <- (linear_est_q_perm v HP), linear_est_q_exact; auto.
  Qed.
  Lemma linear_hist_est_q_range ops v :
    items_of ops <> [] -> (2 * Z.of_nat (length (items_of ops)) <= fint)%Z ->
    whenever (fun r => exists q, fval (linear_est_q (fst r) v) = XFin q /\ (0 <= q <= 1)%R)
             (exec LD linear_new ops).
  Proof.
    intros H1 H2. eapply whenever_mono; [apply linear_history|]. intros [s a] HP; cbn [fst] in *.
    rewrite <- (linear_est_q_perm v HP). now apply linear_est_q_range.
  Qed.
  Lemma linear_hist_est_q_mono ops v1 v2 :
    items_of ops <> [] -> (2 * Z.of_nat (length (items_of ops)) <= fint)%Z -> fle v1 v2 = true ->
    whenever (fun r => fle (linear_est_q (fst r) v1) (linear_est_q (fst r) v2) = true)
             (exec LD linear_new ops).
  Proof.
    intros H1 H2 H3. eapply whenever_mono; [apply linear_history|]. intros [s a] HP; cbn [fst] in *.
    rewrite <- (linear_est_q_perm v1 HP), <- (linear_est_q_perm v2 HP). now apply linear_est_q_mono.
  Qed.
  Lemma order_stat_unique l i x y :
    no_nan l -> order_stat l i x -> order_stat l i y -> feq x y = true.
  Proof.
    intros Hn Hx Hy.
    assert (fle x y = true) as H1 by (eapply order_stat_mono; [exact Hn| |exact Hx|exact Hy]; lia).
    assert (fle y x = true) as H2 by (eapply order_stat_mono; [exact Hn| |exact Hy|exact Hx]; lia).
    apply fle_iff in H1. apply fle_iff in H2. apply feq_iff. split; [now apply xle_antisym|].
    eapply xle_nn_l; eauto.
  Qed.
End Linear.

(** exact arithmetic: no bound on the number of items *)
Lemma linear_hist_est_q_xr (ops : list (op xr)) (v : xr) :
  items_of ops <> [] ->
  whenever (fun r => linear_est_q (fst r) v
                     = XFin (mid_rank (items_of ops) v / INR (length (items_of ops))))
           (exec (linear_digest xr) linear_new ops).
Proof.
  intros H.
  assert (4096 <= Z.max 4096 (2 * Z.of_nat (length (items_of ops))))%Z as HB by lia.
  apply (@linear_hist_est_q xr xr_ops (xr_laws HB) ops v); auto.
  cbn [fint xr_laws]. lia.
Qed.
