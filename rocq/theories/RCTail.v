(** Exponential tails of the ranks of the RC sketches, for one query and for all queries at once. *)
From Coq Require Import List Arith ZArith NArith Lia Bool Permutation Sorted Reals Lra.
From Verif Require Import Base Floats Digest Spec FloatFacts History TDigest RCSketch RCProofs RCHist RCRank RCExpect RCTop RCQuery RCObs RCRel RCRelTop RCExp RCExpTop.
From Verif Require Import RC2 RC2Sections RC2Proofs RC2Hist RC2Rank RC2Top RC2Var.
Set Implicit Arguments.
Local Open Scope R_scope.

Section Union.
  Context {A : Type}.
  Lemma prob_le (p q : A -> bool) (m : M A) : whenever (fun a => p a = true -> q a = true) m -> prob p m <= prob q m.
  Proof.
    unfold prob. intros H. induction m as [a| | |k IH]; cbn [expect whenever] in *; [|lra|lra|].
    - destruct (p a); [rewrite (H eq_refl); lra|destruct (q a); lra].
    - pose proof (IH true (H true)). pose proof (IH false (H false)). lra.
  Qed.
  Lemma prob_or (p q : A -> bool) (m : M A) : prob (fun a => p a || q a) m <= prob p m + prob q m.
  Proof.
    unfold prob. induction m as [a| | |k IH]; cbn [expect]; [|lra|lra|].
    - destruct (p a), (q a); cbn [orb]; lra.
    - pose proof (IH true). pose proof (IH false). lra.
  Qed.
  Lemma prob_false (m : M A) : prob (fun _ => false) m = 0.
  Proof. unfold prob. induction m as [a| | |k IH]; cbn [expect]; auto. rewrite !IH. lra. Qed.
  Lemma prob_union {I} (p : I -> A -> bool) (l : list I) (m : M A) B : (forall i, In i l -> prob (p i) m <= B) ->
    prob (fun a => existsb (fun i => p i a) l) m <= INR (length l) * B.
  Proof.
    induction l as [|i l IH]; intros H.
    - cbn [existsb length INR]. rewrite prob_false. lra.
    - cbn [existsb length]. rewrite S_INR. eapply Rle_trans; [apply prob_or|].
      pose proof (H i (or_introl eq_refl)). specialize (IH (fun j Hj => H j (or_intror Hj))). lra.
  Qed.
End Union.

Section Tail.
  Context {F : Type} {FO : FloatOps F} {FL : FloatLaws F}.
  Notation level := (@level F).

  (** [z] is off the number of items at most [v] by at least [t] *)
  Definition off (items : list F) (t : nat) (z : Z) (v : F) : bool := (Z.of_nat t <=? Z.abs (z - Z.of_nat (n_le items v)))%Z.

  Lemma off_far items t z v : (1 <= t)%nat -> off items t z v = true -> INR t <= Rabs (IZR z - INR (n_le items v)).
  Proof.
    intros Ht H. apply Z.leb_le in H. rewrite (INR_IZR_INZ (n_le items v)), <- minus_IZR, <- abs_IZR, INR_IZR_INZ. now apply IZR_le.
  Qed.

  (** ranks change only at the items *)
  Lemma rank_at_item (items : list F) v : no_nan items -> n_le items v = 0%nat \/ exists w, In w items /\ forall x, In x items -> fle x v = fle x w.
  Proof.
    intros Hn.
    assert (forall l, (forall x, In x l -> In x items) -> (forall x, In x l -> fle x v = false) \/
              exists w, In w l /\ fle w v = true /\ forall x, In x l -> fle x v = true -> fle x w = true) as HM.
    { induction l as [|x l IH]; intros Hl; [left; intros ? []|].
      assert (fisnan x = false) as Hx by (unfold no_nan in Hn; rewrite Forall_forall in Hn; apply Hn, Hl; now left).
      destruct (IH (fun y Hy => Hl y (or_intror Hy))) as [H|(w & Hw & Hv & H)].
      - destruct (fle x v) eqn:E; [|left; intros y [<-|Hy]; auto]. right. exists x. split; [now left|]. split; [exact E|].
        intros y [<-|Hy] Hy'; [now apply fle_refl|]. rewrite (H y Hy) in Hy'. discriminate.
      - right. destruct (fle x v) eqn:E.
        + assert (fisnan w = false) as Hw' by (unfold no_nan in Hn; rewrite Forall_forall in Hn; apply Hn, Hl; now right).
          destruct (@fle_total F FO FL x w Hx Hw') as [L|L].
          * exists w. split; [now right|]. split; [exact Hv|]. intros y [<-|Hy]; auto.
          * assert (fle w x = true) as L' by (rewrite fle_or, L; reflexivity).
            exists x. split; [now left|]. split; [exact E|]. intros y [<-|Hy] Hy'; [now apply fle_refl|]. eapply fle_trans; [apply H; auto|exact L'].
        + exists w. split; [now right|]. split; [exact Hv|]. intros y [<-|Hy] Hy'; [congruence|auto]. }
    destruct (HM items (fun _ H => H)) as [H|(w & Hw & Hv & H)].
    - left. unfold n_le. clear -H. induction items as [|x l IH]; [reflexivity|]. cbn [filter]. rewrite (H x) by now left. apply IH. intros y Hy. apply H. now right.
    - right. exists w. split; [exact Hw|]. intros x Hx. destruct (fle x v) eqn:E; [symmetry; auto|]. destruct (fle x w) eqn:E'; [|reflexivity].
      rewrite (@fle_trans F FO FL x w v E' Hv) in E. discriminate.
  Qed.
  Lemma n_le_ext (l : list F) v w : (forall x, In x l -> fle x v = fle x w) -> n_le l v = n_le l w.
  Proof. intros H. unfold n_le. f_equal. apply filter_ext_in. exact H. Qed.
  Lemma n_le_none (l : list F) v : (forall x, In x l -> fle x v = false) -> n_le l v = 0%nat.
  Proof. intros H. unfold n_le. induction l as [|x l IH]; [reflexivity|]. cbn [filter]. rewrite (H x) by now left. apply IH. intros y Hy. apply H. now right. Qed.
  Lemma n_le_zero (l : list F) v : n_le l v = 0%nat -> forall x, In x l -> fle x v = false.
  Proof.
    unfold n_le. induction l as [|y l IH]; intros H x []; subst.
    - cbn [filter] in H. destruct (fle x v); [discriminate|reflexivity].
    - cbn [filter] in H. destruct (fle y v); [discriminate|auto].
  Qed.
  Lemma lv_rank_ext (P : F -> Prop) (lv : list level) v w : all_in P lv -> (forall x, P x -> fle x v = fle x w) -> lv_rank lv v = lv_rank lv w.
  Proof.
    intros HA H. induction HA as [|[b c] lv Hb _ IH]; [reflexivity|]. cbn [lv_rank fst] in *. rewrite IH. f_equal.
    apply n_le_ext. rewrite Forall_forall in Hb. auto.
  Qed.
  Lemma lv_rank_none (P : F -> Prop) (lv : list level) v : all_in P lv -> (forall x, P x -> fle x v = false) -> lv_rank lv v = 0%nat.
  Proof.
    intros HA H. induction HA as [|[b c] lv Hb _ IH]; [reflexivity|]. cbn [lv_rank fst] in *. rewrite IH, n_le_none; [reflexivity|].
    rewrite Forall_forall in Hb. auto.
  Qed.

  (** all queries at once: it is enough to look at the items *)
  Lemma all_queries {S} (m : M S) (lv : S -> list level) (items vs : list F) t B : no_nan items -> (1 <= t)%nat ->
    always (fun s => all_in (fun x => In x items) (lv s)) m ->
    (forall w, In w items -> prob (fun s => off items t (Z.of_nat (lv_rank (lv s) w)) w) m <= B) ->
    prob (fun s => existsb (fun v => off items t (Z.of_nat (lv_rank (lv s) v)) v) vs) m <= INR (length items) * B.
  Proof.
    intros Hn Ht HA HB. eapply Rle_trans; [|apply (@prob_union S F (fun w s => off items t (Z.of_nat (lv_rank (lv s) w)) w) items m B HB)].
    apply prob_le. eapply whenever_mono; [apply always_whenever, HA|]. cbn beta. intros s Hs H.
    apply existsb_exists in H as (v & _ & Hv). apply existsb_exists.
    destruct (rank_at_item v Hn) as [E|(w & Hw & E)].
    - unfold off in Hv. rewrite E, (lv_rank_none v Hs (n_le_zero _ _ E)) in Hv. apply Z.leb_le in Hv. cbn in Hv. lia.
    - exists w. split; [exact Hw|]. unfold off in *. rewrite <- (n_le_ext items v w E), <- (lv_rank_ext v w Hs E). exact Hv.
  Qed.

  (* ------------------------------------------------------------------ *)
  (** * RCSketch *)

  Lemma rank_after_true lg n k (ops : list (rop F)) v : proper lg n k ops -> default_mode ops -> few_levels n k ops ->
    always (fun _ => True) (rank_after lg n k ops v).
  Proof. intros Hp Hm Hf. apply rank_after_always; auto using default_mode_method. apply whenever_true. Qed.

  Theorem rank_chernoff lg n k (ops : list (rop F)) v bs t : proper lg n k ops -> default_mode ops -> few_levels n k ops -> Nat.even k = true ->
    calc_buffer_size lg n k = Ret bs -> ritems_of ops <> [] -> (1 <= t)%nat ->
    prob (fun z => off (ritems_of ops) t z v) (rank_after lg n k ops v)
    <= 2 * exp (- (INR t ^ 2 * (INR k * INR bs) / (4 * INR (length (ritems_of ops)) ^ 2))).
  Proof.
    intros Hp Hm Hf He Hc Hne Ht. set (N := INR (length (ritems_of ops))).
    assert (0 < N) as HN by (apply lt_0_INR; destruct (ritems_of ops); [congruence|cbn; lia]).
    assert (1 <= k)%nat as Hk by apply Hp. pose proof (size_val (proj1 Hp) Hc) as Hb. destruct (spec_size_ge n Hk) as [Hbs _].
    assert (0 < INR k * INR bs) as HK by (apply Rmult_lt_0_compat; apply lt_0_INR; lia).
    assert (0 < 2 * N ^ 2 / (INR k * INR bs)) as HV by (apply Rdiv_lt_0_compat; [pose proof (pow_lt N 2 HN); lra|exact HK]).
    eapply Rle_trans; [eapply (@chernoff _ (rank_after lg n k ops v) (fun z => IZR z - INR (n_le (ritems_of ops) v)) _ (INR t) HV); [apply lt_0_INR; lia|apply rank_after_true; auto| |intros z; now apply off_far]|].
    - intros l. exact (rank_exp v l Hp Hm Hf He Hc).
    - right. f_equal. f_equal. f_equal. assert (0 < INR k) by (apply lt_0_INR; lia). assert (0 < INR bs) by (apply lt_0_INR; lia). field. repeat split; lra.
  Qed.

  Theorem rank_relative_chernoff lg n k (ops : list (rop F)) v bs h t : proper lg n k ops -> default_mode ops -> few_levels n k ops ->
    calc_buffer_size lg n k = Ret bs -> (n_le (ritems_of ops) v * (k + 1) ^ S h <= bs / 2 * (2 * k) ^ S h)%nat -> (1 <= t)%nat -> (1 <= n_le (ritems_of ops) v)%nat ->
    prob (fun z => off (ritems_of ops) t z v) (rank_after lg n k ops v)
    <= 2 * exp (- (INR t ^ 2 * (INR k * INR (bs / 2)) / (4 * (1 + / INR k) ^ (2 * h) * INR (n_le (ritems_of ops) v) ^ 2))).
  Proof.
    intros Hp Hm Hf Hc Hh Ht Hr. set (r := INR (n_le (ritems_of ops) v)).
    assert (0 < r) as HN by (apply lt_0_INR; lia).
    assert (1 <= k)%nat as Hk by apply Hp. pose proof (size_val (proj1 Hp) Hc) as Hb. destruct (spec_size_ge n Hk) as [Hbs _].
    assert (1 <= bs / 2)%nat as Hq by (apply Nat.div_le_lower_bound; lia).
    assert (0 < INR k) as Hk0 by (apply lt_0_INR; lia). assert (0 < INR (bs / 2)) as Hq0 by (apply lt_0_INR; lia).
    assert (0 < INR k * INR (bs / 2)) as HK by (apply Rmult_lt_0_compat; assumption).
    assert (0 < (1 + / INR k) ^ (2 * h)) as HP by (apply pow_lt; pose proof (Rinv_0_lt_compat _ Hk0); lra).
    assert (0 < 2 * (1 + / INR k) ^ (2 * h) * r ^ 2 / (INR k * INR (bs / 2))) as HV.
    { apply Rdiv_lt_0_compat; [|exact HK]. pose proof (pow_lt r 2 HN). apply Rmult_lt_0_compat; lra. }
    eapply Rle_trans; [eapply (@chernoff _ (rank_after lg n k ops v) (fun z => IZR z - r) _ (INR t) HV); [apply lt_0_INR; lia|apply rank_after_true; auto| |intros z; now apply off_far]|].
    - intros l. exact (rank_relative_exp2 v h l Hp Hm Hf Hc Hh).
    - right. f_equal. f_equal. f_equal. set (e := (1 + / INR k) ^ (2 * h)) in *. field. repeat split; lra.
  Qed.
  (** with h = k the factor is at most 9 *)
  Theorem rank_relative_chernoff9 lg n k (ops : list (rop F)) v bs t : proper lg n k ops -> default_mode ops -> few_levels n k ops ->
    calc_buffer_size lg n k = Ret bs -> (n_le (ritems_of ops) v * (k + 1) ^ S k <= bs / 2 * (2 * k) ^ S k)%nat -> (1 <= t)%nat -> (1 <= n_le (ritems_of ops) v)%nat ->
    prob (fun z => off (ritems_of ops) t z v) (rank_after lg n k ops v)
    <= 2 * exp (- (INR t ^ 2 * (INR k * INR (bs / 2)) / (36 * INR (n_le (ritems_of ops) v) ^ 2))).
  Proof.
    intros Hp Hm Hf Hc Hh Ht Hr. eapply Rle_trans; [exact (@rank_relative_chernoff lg n k ops v bs k t Hp Hm Hf Hc Hh Ht Hr)|].
    apply Rmult_le_compat_l; [lra|]. apply exp_mono, Ropp_le_contravar. set (r := INR (n_le (ritems_of ops) v)).
    assert (0 < r) as HN by (apply lt_0_INR; lia). assert (1 <= k)%nat as Hk by apply Hp. assert (0 < INR k) as Hk0 by (apply lt_0_INR; lia).
    assert (0 < 1 + / INR k) as H1 by (pose proof (Rinv_0_lt_compat _ Hk0); lra).
    pose proof (@compound k k Hk (le_n k)) as H3. assert (0 < (1 + / INR k) ^ k) as H0 by (now apply pow_lt).
    assert ((1 + / INR k) ^ (2 * k) <= 9) as H9 by (replace (2 * k)%nat with (k + k)%nat by lia; rewrite pow_add; nra).
    assert (0 < (1 + / INR k) ^ (2 * k)) as H2 by (now apply pow_lt). pose proof (pow_lt r 2 HN) as Hr2.
    unfold Rdiv. apply Rmult_le_compat_l.
    - apply Rmult_le_pos; [apply pow2_ge_0|]. apply Rmult_le_pos; apply pos_INR.
    - apply Rinv_le_contravar; [apply Rmult_lt_0_compat; lra|]. apply Rmult_le_compat_r; lra.
  Qed.

  (** the answers to a list of queries *)
  Definition ranks_after (lg : F -> F) n k ops (vs : list F) : M (list Z) := do s <- rc_run lg n k ops; mapM (fun v => interpolate_rank s v) vs.

  Lemma ranks_val {S} (f : S -> F -> M Z) (g : S -> F -> Z) s vs : (forall v, f s v = Ret (g s v)) -> mapM (f s) vs = Ret (map (g s) vs).
  Proof. intros H. induction vs as [|v vs IH]; [reflexivity|]. cbn [mapM map]. now rewrite H, IH. Qed.
  Lemma existsb_combine (g : F -> Z) items t (vs : list F) : existsb (fun p => off items t (fst p) (snd p)) (combine (map g vs) vs) = existsb (fun v => off items t (g v) v) vs.
  Proof. induction vs as [|v vs IH]; [reflexivity|]. cbn [map combine existsb fst snd]. now rewrite IH. Qed.

  Lemma ranks_levels lg n k (ops : list (rop F)) : proper lg n k ops -> default_mode ops -> few_levels n k ops ->
    always (fun s => all_in (fun x => In x (ritems_of ops)) (rc_levels s) /\ (length (rc_levels s) <= 64)%nat) (rc_run lg n k ops).
  Proof.
    intros Hp Hm Hf. set (its := ritems_of ops). assert (no_nan its) as Hn by apply Hp.
    refine (@always_mono _ _ _ _ (@always_whenever_and _ _ _ _ _ (@few_levels_whenever F FO FL lg n k ops (proj1 Hp) Hf)) _).
    2: { cbn beta. intros s H. exact H. }
    rewrite rc_run_val by apply Hp. eapply always_mono; [apply rc_fresh_always with (P := fun x => In x its /\ fisnan x = false); [apply Hp|apply Hp| |]|].
    - eapply Forall_impl; [|exact (default_mode_method Hm)]. intros o ->. apply keeps_default_P. tauto.
    - apply Forall_forall. intros x Hx. unfold no_nan in Hn. rewrite Forall_forall in Hn. split; auto.
    - cbn beta. intros s (_ & H & _). unfold all_in in *. eapply Forall_impl; [|exact H]. intros l Hl. eapply Forall_impl; [|exact Hl]. cbn beta. tauto.
  Qed.
  Lemma ranks_state lg n k (ops : list (rop F)) vs bs t : proper lg n k ops -> default_mode ops -> few_levels n k ops -> Nat.even k = true ->
    calc_buffer_size lg n k = Ret bs -> (1 <= t)%nat ->
    prob (fun s => existsb (fun v => off (ritems_of ops) t (Z.of_nat (lv_rank (rc_levels s) v)) v) vs) (rc_run lg n k ops)
    <= 2 * INR (length (ritems_of ops)) * exp (- (INR t ^ 2 * (INR k * INR bs) / (4 * INR (length (ritems_of ops)) ^ 2))).
  Proof.
    intros Hp Hm Hf He Hc Ht. set (its := ritems_of ops). set (N := INR (length its)).
    set (B := 2 * exp (- (INR t ^ 2 * (INR k * INR bs) / (4 * N ^ 2)))). pose proof (ranks_levels Hp Hm Hf) as HA.
    replace (2 * N * exp (- (INR t ^ 2 * (INR k * INR bs) / (4 * N ^ 2)))) with (N * B) by (unfold B; ring).
    apply all_queries; [apply Hp|exact Ht|eapply always_mono; [exact HA|cbn beta; tauto]|].
    intros w Hw. assert (its <> []) as Hne by (intros E; rewrite E in Hw; destruct Hw).
    eapply Rle_trans; [|exact (@rank_chernoff lg n k ops w bs t Hp Hm Hf He Hc Hne Ht)].
    unfold prob. rewrite rank_after_expect by (auto using default_mode_method). rewrite <- (@rc_run_val F FO FL lg n k ops) by apply Hp. apply Rle_refl.
  Qed.
  Theorem ranks_chernoff lg n k (ops : list (rop F)) vs bs t : proper lg n k ops -> default_mode ops -> few_levels n k ops -> Nat.even k = true ->
    calc_buffer_size lg n k = Ret bs -> (1 <= t)%nat ->
    prob (fun zs => existsb (fun p => off (ritems_of ops) t (fst p) (snd p)) (combine zs vs)) (ranks_after lg n k ops vs)
    <= 2 * INR (length (ritems_of ops)) * exp (- (INR t ^ 2 * (INR k * INR bs) / (4 * INR (length (ritems_of ops)) ^ 2))).
  Proof.
    intros Hp Hm Hf He Hc Ht. eapply Rle_trans; [|exact (@ranks_state lg n k ops vs bs t Hp Hm Hf He Hc Ht)].
    unfold prob, ranks_after. rewrite expect_bind. right. eapply expect_ext_always; [exact (ranks_levels Hp Hm Hf)|]. cbn beta. intros s [_ Hs].
    rewrite (@ranks_val _ (fun s v => interpolate_rank s v) (fun s v => Z.of_nat (lv_rank (rc_levels s) v))).
    2: { intros v. now apply interpolate_rank_val. }
    cbn [expect]. now rewrite existsb_combine.
  Qed.

  (* ------------------------------------------------------------------ *)
  (** * RCSketch2 *)

  Lemma rank_after2_true extra k (ops : list (rop F)) v : proper2 k ops -> few2 k ops -> default_mode ops -> no_nan (ritems_of ops) ->
    always (fun _ => True) (rank_after2 extra k ops v).
  Proof.
    intros Hp Hf Hm Hn. unfold rank_after2. rewrite always_bind_iff.
    eapply always_mono; [apply (@levels64 F FO FL extra k ops (fun x => fisnan x = false)); auto using default_keeps, default_mode_method|].
    cbn beta. intros s H. unfold interpolate_rank2. rewrite interpolate_rank_val; [exact I|]. unfold as_rc. cbn [rc_levels]. now rewrite map_length.
  Qed.

  Theorem rank2_chernoff extra k (ops : list (rop F)) v o h t : proper2 k ops -> few2 k ops -> default_mode ops -> no_nan (ritems_of ops) ->
    Nat.odd o = true -> (o <= min_sec k + 1)%nat -> ((o + 1) ^ h * length (ritems_of ops) < 6 * N.to_nat k * (2 * o) ^ h)%nat ->
    ritems_of ops <> [] -> (1 <= t)%nat ->
    prob (fun z => off (ritems_of ops) t z v) (rank_after2 extra k ops v) <= 2 * exp (- (INR t ^ 2 / (2 * var2 k o h (length (ritems_of ops))))).
  Proof.
    intros Hp Hf Hm Hn Ho1 Ho2 Hh Hne Ht.
    assert (1 <= o)%nat as Ho by (destruct o; [discriminate|lia]). pose proof (rho_ge Ho) as Hr.
    assert (0 < var2 k o h (length (ritems_of ops))) as HV.
    { unfold var2. assert (0 < INR (min_sec k)) as Hg by (apply lt_0_INR; exact (min_sec_ge (proj1 Hp))).
      assert (0 < INR (length (ritems_of ops))) as HN by (apply lt_0_INR; destruct (ritems_of ops); [congruence|cbn; lia]).
      apply Rdiv_lt_0_compat; [|exact Hg]. apply Rmult_lt_0_compat; [|exact HN]. apply Rdiv_lt_0_compat; [|lra].
      replace (h + 1)%nat with (S h) by lia. cbn [pow]. assert (1 <= rho o ^ h) by (apply pow_R1_Rle; lra). nra. }
    eapply (@chernoff _ (rank_after2 extra k ops v) (fun z => IZR z - INR (n_le (ritems_of ops) v)) _ (INR t) HV); [apply lt_0_INR; lia|apply rank_after2_true; auto| |intros z; now apply off_far].
    intros l. exact (rank2_exp extra v h l Hp Hf Hm Hn Ho1 Ho2 Hh).
  Qed.

  Definition ranks_after2 extra k ops (vs : list F) : M (list Z) := do s <- rc2_run extra k ops; mapM (fun v => interpolate_rank2 s v) vs.

  Lemma ranks2_levels extra k (ops : list (rop F)) o : proper2 k ops -> few2 k ops -> default_mode ops -> no_nan (ritems_of ops) ->
    Nat.odd o = true -> (o <= min_sec k + 1)%nat ->
    always (fun s => all_in (fun x => In x (ritems_of ops)) (plain (r2_levels s)) /\ (length (r2_levels s) <= 64)%nat) (rc2_run extra k ops).
  Proof.
    intros Hp Hf Hm Hn Ho1 Ho2. set (its := ritems_of ops). pose proof (default_mode_method Hm) as Hm'.
    assert (forall x, In x its /\ fisnan x = false -> fisnan x = false) as Hi by tauto.
    assert (Forall (fun x => In x its /\ fisnan x = false) its) as HP.
    { apply Forall_forall. intros x Hx. unfold no_nan in Hn. rewrite Forall_forall in Hn. split; auto. }
    pose proof (@levels64 F FO FL extra k ops (fun x => In x its /\ fisnan x = false) Hp Hf (default_keeps _ Hi Hm') HP) as H1.
    pose proof (@rc2_state F FO FL extra k ops o (fun x => In x its /\ fisnan x = false) Hp (conj Ho1 Ho2) (default_keeps _ Hi Hm') HP) as H2.
    eapply always_mono; [exact (@always_whenever_and _ _ _ _ H1 (@always_whenever _ _ _ H2))|]. cbn beta. intros s [L ((_ & _ & H & _) & _)]. split; [|exact L].
    cbn [snd] in H. unfold all_in in *. eapply Forall_impl; [|exact H]. intros l Hl. eapply Forall_impl; [|exact Hl]. cbn beta. tauto.
  Qed.
  Lemma ranks2_state extra k (ops : list (rop F)) vs o h t : proper2 k ops -> few2 k ops -> default_mode ops -> no_nan (ritems_of ops) ->
    Nat.odd o = true -> (o <= min_sec k + 1)%nat -> ((o + 1) ^ h * length (ritems_of ops) < 6 * N.to_nat k * (2 * o) ^ h)%nat -> (1 <= t)%nat ->
    prob (fun s => existsb (fun v => off (ritems_of ops) t (Z.of_nat (lv_rank (plain (r2_levels s)) v)) v) vs) (rc2_run extra k ops)
    <= 2 * INR (length (ritems_of ops)) * exp (- (INR t ^ 2 / (2 * var2 k o h (length (ritems_of ops))))).
  Proof.
    intros Hp Hf Hm Hn Ho1 Ho2 Hh Ht. set (its := ritems_of ops). pose proof (@ranks2_levels extra k ops o Hp Hf Hm Hn Ho1 Ho2) as HA. pose proof (default_mode_method Hm) as Hm'.
    set (B := 2 * exp (- (INR t ^ 2 / (2 * var2 k o h (length its))))).
    replace (2 * INR (length its) * exp (- (INR t ^ 2 / (2 * var2 k o h (length its))))) with (INR (length its) * B) by (unfold B; ring).
    apply all_queries; [exact Hn|exact Ht|eapply always_mono; [exact HA|cbn beta; tauto]|].
    intros w Hw. assert (its <> []) as Hne by (intros E; rewrite E in Hw; destruct Hw).
    eapply Rle_trans; [|exact (@rank2_chernoff extra k ops w o h t Hp Hf Hm Hn Ho1 Ho2 Hh Hne Ht)].
    unfold prob. rewrite rank_after2_expect by assumption. apply Rle_refl.
  Qed.
  Theorem ranks2_chernoff extra k (ops : list (rop F)) vs o h t : proper2 k ops -> few2 k ops -> default_mode ops -> no_nan (ritems_of ops) ->
    Nat.odd o = true -> (o <= min_sec k + 1)%nat -> ((o + 1) ^ h * length (ritems_of ops) < 6 * N.to_nat k * (2 * o) ^ h)%nat -> (1 <= t)%nat ->
    prob (fun zs => existsb (fun p => off (ritems_of ops) t (fst p) (snd p)) (combine zs vs)) (ranks_after2 extra k ops vs)
    <= 2 * INR (length (ritems_of ops)) * exp (- (INR t ^ 2 / (2 * var2 k o h (length (ritems_of ops))))).
  Proof.
    intros Hp Hf Hm Hn Ho1 Ho2 Hh Ht. eapply Rle_trans; [|exact (@ranks2_state extra k ops vs o h t Hp Hf Hm Hn Ho1 Ho2 Hh Ht)].
    unfold prob, ranks_after2. rewrite expect_bind. right. eapply expect_ext_always; [exact (@ranks2_levels extra k ops o Hp Hf Hm Hn Ho1 Ho2)|]. cbn beta. intros s [_ Hs].
    rewrite (@ranks_val _ (fun s v => interpolate_rank2 s v) (fun s v => Z.of_nat (lv_rank (plain (r2_levels s)) v))).
    2: { intros v. unfold interpolate_rank2. rewrite interpolate_rank_val; [reflexivity|]. unfold as_rc. cbn [rc_levels]. now rewrite map_length. }
    cbn [expect]. now rewrite existsb_combine.
  Qed.
End Tail.
