(** SymDigest over two RCSketches: exact at both ends. *)
From Coq Require Import List Arith ZArith NArith Lia Bool Reals Lra.
From Verif Require Import Base Floats XReal Digest Spec FloatFacts History LinearProofs WrapProofs MultiSymProofs.
From Verif Require Import TDigest RCSketch RCProofs RCHist RCRank RCExpect RCTop RCQuery RCObs RCObs2 RCRelTop RCValue.
Set Implicit Arguments.
Local Open Scope nat_scope.

Section RS.
  Context {F : Type} {FO : FloatOps F} {FL : FloatLaws F}.
  Notation SD := (sym_digest (rc_digest (F := F))).

  (** [SymDigest::new(RCSketch::new(n, k), RCSketch::new(n, k))] (sym_digest.rs:75-80) and a history of calls *)
  Definition sym_rc_run (lg : F -> F) n k (ops : list (op F)) : M (sym (rc_digest (F := F)) * list F) :=
    do l <- rc_new lg n k; do h <- rc_new lg n k; exec SD (Sym rc_digest l h) ops.
  (** the answer to one more query *)
  Definition sym_rc_value lg n k ops q : M F := do r <- sym_rc_run lg n k ops; do o <- d_est_v SD (fst r) q; Ret (snd o).
  Definition sym_rc_quantile lg n k ops v : M F := do r <- sym_rc_run lg n k ops; do o <- d_est_q SD (fst r) v; Ret (snd o).

  (** at most n items and no NaN among items and quantiles; queries only once there are items *)
  Definition sym_rc_allowed n (its : list F) (o : op F) : Prop :=
    match o with
    | Digest.Add x => fisnan x = false /\ length its + 1 <= n
    | AddBuf l => no_nan l /\ length its + length l <= n
    | Quant _ => its <> []
    | Val q => its <> [] /\ fisnan q = false
    end.

  Section Fixed.
    Variables (lg : F -> F) (n k : nat).
    Hypothesis Hp : rc_params lg n k.
    Hypothesis Hu : (N.of_nat (n / k) <= u32_max)%N.
    Hypothesis He : Nat.even k = true.
    Hypothesis Hi : (Z.of_nat n <= fint)%Z.
    Notation bs := (spec_size n k).

    (** what a sketch that has taken [its] answers *)
    Definition good (s : rc F) (its : list F) : Prop :=
      even_state its s /\ guard k (bs / 2) (rc_levels s) its /\
      forall v h, length its < bs * 2 ^ h ->
        (Z.of_nat k * Z.abs (Z.of_nat (lv_rank (rc_levels s) v) - Z.of_nat (n_le its v)) <= Z.of_nat (h * length its))%Z.

    Lemma calc_size : calc_buffer_size lg n k = Ret bs.
    Proof using Hp.
      pose proof (@rc_new_val F FO FL lg n k Hp) as E. unfold rc_new in E.
      destruct (calc_buffer_size lg n k) as [b| | |]; cbn [bind] in E; try discriminate.
      unfold rc_fresh in E. injection E as E. now rewrite E.
    Qed.

    Lemma reached_good s its : reached n k s its -> no_nan its -> length its <= n -> good s its.
    Proof using FL Hp Hu He.
      intros (ops & Hm & <- & Hs) Hn Hl. assert (1 <= k) as Hk by apply Hp.
      assert (proper lg n k ops) as Hpr by (split; [exact Hp|split; [right; auto|exact Hn]]).
      assert (few_levels31 n k ops) as H31 by (left; auto).
      rewrite <- (@rc_run_val F FO FL lg n k ops Hp) in Hs. split; [|split].
      - exact (@always_returns _ _ _ _ (@even_always F FO FL lg n k ops Hpr (default_mode_method Hm) He H31) Hs).
      - assert (whenever (fun s => guard k (bs / 2) (rc_levels s) (ritems_of ops)) (rc_run lg n k ops)) as HG.
        { rewrite (@rc_run_val F FO FL lg n k ops Hp). apply rc_guard; auto. now apply default_mode_method. }
        rewrite whenever_returns in HG. exact (HG _ Hs).
      - intros v h Hh.
        pose proof (@rank_error_even F FO FL lg n k ops v h bs Hpr Hm (few_31_64 Hm He H31) He calc_size Hh) as HA.
        apply (@rank_state F FO FL lg n k ops Hpr Hm He H31 v (fun z => (Z.of_nat k * Z.abs (z - Z.of_nat (n_le (ritems_of ops) v)) <= Z.of_nat (h * length (ritems_of ops)))%Z)) in HA.
        exact (@always_returns _ _ _ _ HA Hs).
    Qed.

    Definition sym_inv (s : sym (rc_digest (F := F))) (its : list F) : Prop :=
      reached n k (low_digest s) its /\ reached n k (high_digest s) (map fneg its) /\ no_nan its /\ length its <= n.

    Lemma sym_inv_good s its : sym_inv s its -> good (low_digest s) its /\ good (high_digest s) (map fneg its).
    Proof using FL Hp Hu He.
      intros (H1 & H2 & H3 & H4). split; apply reached_good; auto; [now apply no_nan_neg|now rewrite map_length].
    Qed.

    Lemma good_value s its q : good s its -> its <> [] -> length its <= n ->
      exists x, rc_est_value s q = Ret x /\ In x its /\ value_spec (rc_levels s) (fval (fmul q (fofZ (Z.of_nat (length its))))) x.
    Proof using FL Hp Hu He Hi. intros (H1 & _) H2 H3. apply (@even_state_value F FO FL its s q H1 H2). lia. Qed.
    Lemma good_quantile s its v : good s its -> its <> [] -> length its <= n ->
      exists a r, rc_est_quantile s v = Ret a /\ fval a = XFin r /\ (0 <= r <= 1)%R /\
        frnd (INR (lv_rank (rc_levels s) v) / INR (length its)) = XFin r /\ lv_rank (rc_levels s) v <= length its.
    Proof using FL Hp Hu He Hi.
      intros (H1 & _) H2 H3. destruct (@even_state_quantile F FO FL its s v H1 H2 ltac:(lia)) as (a & A1 & A2).
      assert (lv_rank (rc_levels s) v <= length its) as HR by (destruct H1 as (_ & E & _); rewrite <- E; apply lv_rank_le_weight).
      assert (1 <= length its) as HL by (destruct its; [congruence|cbn; lia]).
      destruct (@frnd_range F FO FL 0 1 (INR (lv_rank (rc_levels s) v) / INR (length its))) as (r & E & Hr); [apply fexact_0|apply fexact_1|now apply ratio_range|].
      exists a, r. rewrite A2, E. auto.
    Qed.

    Lemma map_fneg_ne (its : list F) : its <> [] -> map fneg its <> [].
    Proof using Type. destruct its; [congruence|discriminate]. Qed.

    (** the two answers and the choice between them *)
    Lemma sym_value_val s its q : sym_inv s its -> its <> [] -> fisnan q = false ->
      exists x y c, d_est_v SD s q = Ret (s, match c with Lt => x | Gt => fneg y | Eq => fdiv (fadd x (fneg y)) f2 end) /\
        fcmp q fhalf = Some c /\ rc_est_value (low_digest s) q = Ret x /\ rc_est_value (high_digest s) (fsub f1 q) = Ret y.
    Proof using FL Hp Hu He Hi.
      intros HI Hne Hq. destruct (sym_inv_good HI) as [G1 G2]. destruct HI as (_ & _ & _ & HL).
      destruct (@good_value _ _ q G1 Hne HL) as (x & X1 & _).
      destruct (@good_value _ _ (fsub f1 q) G2 (map_fneg_ne Hne) ltac:(rewrite map_length; exact HL)) as (y & Y1 & _).
      assert (exists c, fcmp q fhalf = Some c) as [c Hc].
      { rewrite fcmp_val, fval_fhalf. unfold fisnan in Hq. rewrite fcmp_val in Hq. destruct (fval q) as [|b|r]; cbn in *; [discriminate| |].
        - destruct b; eauto.
        - eexists; reflexivity. }
      exists x, y, c. split; [|auto]. cbn [d_est_v sym_digest]. unfold sym_est_v. cbn [d_est_v rc_digest]. rewrite X1, Y1. cbn [bind].
      unfold cmp_unwrap. rewrite Hc. destruct s; destruct c; reflexivity.
    Qed.
    Lemma sym_quantile_val s its v : sym_inv s its -> its <> [] ->
      exists x y rx ry c, d_est_q SD s v = Ret (s, match c with Lt => x | Gt => fsub f1 y | Eq => fdiv (fadd x (fsub f1 y)) f2 end) /\
        fcmp (fdiv (fadd x (fsub f1 y)) f2) fhalf = Some c /\
        fval x = XFin rx /\ (0 <= rx <= 1)%R /\ frnd (INR (lv_rank (rc_levels (low_digest s)) v) / INR (length its)) = XFin rx /\
        fval y = XFin ry /\ (0 <= ry <= 1)%R /\ frnd (INR (lv_rank (rc_levels (high_digest s)) (fneg v)) / INR (length its)) = XFin ry.
    Proof using FL Hp Hu He Hi.
      intros HI Hne. destruct (sym_inv_good HI) as [G1 G2]. destruct HI as (_ & _ & _ & HL).
      destruct (@good_quantile _ _ v G1 Hne HL) as (x & rx & X1 & X2 & X3 & X4 & _).
      destruct (@good_quantile _ _ (fneg v) G2 (map_fneg_ne Hne) ltac:(rewrite map_length; exact HL)) as (y & ry & Y1 & Y2 & Y3 & Y4 & _).
      rewrite map_length in Y4.
      assert (fexact 2) as E2 by (apply (@fint_exact F FO FL 2); pose proof (@fint_ge F FO FL); lia).
      destruct (@frnd_range F FO FL 0 1 (1 - ry)) as (z & Z1 & Z2); [apply fexact_0|apply fexact_1|lra|].
      pose proof (fsub_fin fval_f1 Y2) as S1. rewrite Z1 in S1.
      destruct (@frnd_range F FO FL 0 2 (rx + z)) as (w & W1 & W2); [apply fexact_0|exact E2|lra|].
      pose proof (fadd_fin X2 S1) as S2. rewrite W1 in S2.
      destruct (@frnd_range F FO FL 0 1 (w / 2)) as (u & U1 & U2); [apply fexact_0|apply fexact_1|lra|].
      pose proof (fdiv_fin S2 fval_f2 ltac:(lra)) as S3. rewrite U1 in S3.
      assert (exists c, fcmp (fdiv (fadd x (fsub f1 y)) f2) fhalf = Some c) as [c Hc].
      { rewrite fcmp_val, S3, fval_fhalf. cbn. eauto. }
      exists x, y, rx, ry, c. split; [|auto 10].
      cbn [d_est_q sym_digest]. unfold sym_est_q. cbn [d_est_q rc_digest]. rewrite X1, Y1. cbn [bind].
      unfold cmp_unwrap. rewrite Hc. destruct s; destruct c; reflexivity.
    Qed.

    Lemma sym_rc_step s its o : sym_inv s its -> sym_rc_allowed n its o -> always (fun r => sym_inv (fst r) (its ++ items_of [o])) (step SD s o).
    Proof using FL Hp Hu He Hi.
      intros HI Hok. assert (1 <= k) as Hk by apply Hp. pose proof HI as (R1 & R2 & Hn & Hl).
      destruct o as [x|l|v|q]; cbn [step d_add d_add_buffer sym_digest sym_rc_allowed] in *.
      - destruct Hok as [Hx Hlen]. unfold sym_add. cbn [d_add rc_digest items_of app]. rewrite !bind_assoc.
        eapply always_bind; [apply (@reached_step F FO FL n k _ its (RAdd x)); auto; repeat constructor; auto|]. intros l Rl. rewrite !bind_assoc.
        eapply always_bind.
        { apply (@reached_step F FO FL n k _ (map fneg its) (RAdd (fneg x))); auto; [now apply no_nan_neg| |now rewrite map_length].
          repeat constructor. now rewrite fisnan_neg. }
        intros h Rh. cbn [bind always fst]. repeat split; cbn [low_digest high_digest].
        + exact Rl.
        + rewrite map_app. exact Rh.
        + apply Forall_app. split; [exact Hn|]. constructor; [exact Hx|constructor].
        + rewrite app_length. exact Hlen.
      - destruct Hok as [Hx Hlen]. unfold sym_add_buffer. cbn [d_add_buffer rc_digest items_of]. rewrite app_nil_r, !bind_assoc.
        eapply always_bind; [apply (@reached_step F FO FL n k _ its (RBuf l)); auto|]. intros l' Rl. rewrite !bind_assoc.
        eapply always_bind.
        { apply (@reached_step F FO FL n k _ (map fneg its) (RBuf (map fneg l))); auto; [now apply no_nan_neg|now apply no_nan_neg|]. cbn [ritems]. rewrite !map_length. exact Hlen. }
        intros h Rh. cbn [bind always fst]. repeat split; cbn [low_digest high_digest].
        + exact Rl.
        + rewrite map_app. exact Rh.
        + apply Forall_app. split; assumption.
        + rewrite app_length. exact Hlen.
      - destruct (sym_quantile_val v HI Hok) as (x & y & rx & ry & c & E & _). rewrite E. cbn [bind always fst items_of]. rewrite app_nil_r. exact HI.
      - destruct Hok as [Hne Hq]. destruct (sym_value_val q HI Hne Hq) as (x & y & c & E & _). rewrite E. cbn [bind always fst items_of]. rewrite app_nil_r. exact HI.
    Qed.

    Lemma reached_nil : reached n k (rc_fresh n k) [].
    Proof. exists []. repeat split. constructor. Qed.
    Lemma sym_rc_always ops : ok_hist (sym_rc_allowed n) [] ops -> always (fun r => sym_inv (fst r) (items_of ops)) (sym_rc_run lg n k ops).
    Proof using FL Hp Hu He Hi.
      intros Hok. unfold sym_rc_run. rewrite (@rc_new_val F FO FL lg n k Hp). cbn [bind].
      apply (@exec_always F SD (sym_rc_allowed n) sym_inv) with (its := []); [exact sym_rc_step| |exact Hok].
      split; [exact reached_nil|]. split; [exact reached_nil|]. split; [constructor|cbn; lia].
    Qed.
    Theorem sym_rc_runs ops : ok_hist (sym_rc_allowed n) [] ops ->
      always (fun r => d_count SD (fst r) = Ret (Z.of_nat (length (items_of ops)))) (sym_rc_run lg n k ops).
    Proof using FL Hp Hu He Hi.
      intros Hok. eapply always_mono; [apply sym_rc_always, Hok|]. intros [s a] HI. cbn [fst] in *. cbn [d_count sym_digest rc_digest].
      destruct (sym_inv_good HI) as [((_ & _ & E & _) & _) _]. now rewrite E.
    Qed.

    Section After.
      Variable ops : list (op F).
      Hypothesis Hok : ok_hist (sym_rc_allowed n) [] ops.
      Hypothesis Hne : items_of ops <> [].
      Notation items := (items_of ops).
      Notation N := (length (items_of ops)).

      Lemma value_from q (P : F -> Prop) : fisnan q = false ->
        (forall s x y c, sym_inv s items -> fcmp q fhalf = Some c -> rc_est_value (low_digest s) q = Ret x ->
           rc_est_value (high_digest s) (fsub f1 q) = Ret y -> P (match c with Lt => x | Gt => fneg y | Eq => fdiv (fadd x (fneg y)) f2 end)) ->
        always P (sym_rc_value lg n k ops q).
      Proof using FL Hp Hu He Hi Hok Hne.
        intros Hq H. unfold sym_rc_value. eapply always_bind; [apply sym_rc_always, Hok|]. intros [s a] HI. cbn [fst] in *.
        destruct (sym_value_val q HI Hne Hq) as (x & y & c & E & Hc & X & Y). rewrite E. cbn [bind always snd]. eapply H; eauto.
      Qed.

      Lemma rank_of (q : F) r : fval q = XFin r -> (0 <= r <= 1)%R -> N <= n -> exists t, fval (fmul q (fofZ (Z.of_nat N))) = XFin t /\ (0 <= t <= INR N)%R.
      Proof using FL Hp Hu He Hi.
        intros Hq Hr HL.
        assert (fval (fofZ (Z.of_nat N)) = XFin (INR N)) as EN by (rewrite fval_int by lia; now rewrite INR_IZR_INZ).
        pose proof (pos_INR N) as HN.
        destruct (@frnd_range F FO FL 0 (INR N) (r * INR N)) as (t & E & Ht); [apply fexact_0|apply fexact_nat; lia|nra|].
        exists t. split; [|exact Ht]. rewrite (fmul_fin Hq EN). exact E.
      Qed.
      Lemma other (q : F) r : fval q = XFin r -> (0 <= r <= 1)%R -> exists r', fval (fsub f1 q) = XFin r' /\ (0 <= r' <= 1)%R.
      Proof using FL.
        intros Hq Hr. destruct (@frnd_range F FO FL 0 1 (1 - r)) as (z & Z1 & Z2); [apply fexact_0|apply fexact_1|lra|].
        exists z. rewrite (fsub_fin fval_f1 Hq). auto.
      Qed.
      Lemma hist_len : N <= n.
      Proof using FL Hp Hu He Hi Hok.
        assert (exists r, returns (sym_rc_run lg n k ops) r) as [r Hr].
        { pose proof (sym_rc_always _ Hok) as HA. induction (sym_rc_run lg n k ops) as [r| | |f IH]; cbn [always] in HA; try contradiction; [exists r; reflexivity|].
          destruct (IH true (HA true)) as [r Hr]. exists r, true. exact Hr. }
        pose proof (@always_returns _ _ _ _ (sym_rc_always _ Hok) Hr) as (_ & _ & _ & H). exact H.
      Qed.
      Lemma hist_nn : no_nan items.
      Proof using FL Hp Hu He Hi Hok.
        assert (exists r, returns (sym_rc_run lg n k ops) r) as [r Hr].
        { pose proof (sym_rc_always _ Hok) as HA. induction (sym_rc_run lg n k ops) as [r| | |f IH]; cbn [always] in HA; try contradiction; [exists r; reflexivity|].
          destruct (IH true (HA true)) as [r Hr]. exists r, true. exact Hr. }
        pose proof (@always_returns _ _ _ _ (sym_rc_always _ Hok) Hr) as (_ & _ & H & _). exact H.
      Qed.

      (** below the median: the low sketch *)
      Lemma cmp_half (q : F) r c : fval q = XFin r -> fcmp q fhalf = Some c -> match c with Lt => (r < 1/2)%R | Eq => (r = 1/2)%R | Gt => (1/2 < r)%R end.
      Proof using FL.
        intros Hq. rewrite fcmp_val, Hq, fval_fhalf. cbn. intros H. injection H as <-. destruct (Raux.Rcompare_spec r (1/2)); assumption.
      Qed.
      Lemma nn_fin (q : F) r : fval q = XFin r -> fisnan q = false.
      Proof using FL. intros H. unfold fisnan. rewrite fcmp_val, H. reflexivity. Qed.

      Lemma half_rank (q : F) r t : fval q = XFin r -> (0 <= r <= 1/2)%R -> fval (fmul q (fofZ (Z.of_nat N))) = XFin t -> (0 <= t < INR N)%R.
      Proof using FL Hp Hu He Hi Hok Hne.
        intros Hq Hr Ht. pose proof hist_len as HL.
        assert (fval (fofZ (Z.of_nat N)) = XFin (INR N)) as EN by (rewrite fval_int by lia; now rewrite INR_IZR_INZ).
        assert (1 <= INR N)%R as HN by (apply (le_INR 1); destruct items; [congruence|cbn; lia]).
        destruct (@frnd_range F FO FL 0 (INR N / 2) (r * INR N)) as (t' & E & Ht'); [apply fexact_0| |nra|].
        - rewrite INR_IZR_INZ. apply fhalf_exact. lia.
        - rewrite (fmul_fin Hq EN), E in Ht. injection Ht as <-. lra.
      Qed.

      Theorem sym_value_low q r t : fval q = XFin r -> (0 <= r < 1/2)%R -> fval (fmul q (fofZ (Z.of_nat N))) = XFin t ->
        (t < INR (bs / 2))%R ->
        always (fun x => In x items /\ (INR (n_lt items x) <= t < INR (n_le items x))%R) (sym_rc_value lg n k ops q).
      Proof using FL Hp Hu He Hi Hok Hne.
        intros Hq Hr Ht Hb. apply value_from; [now apply nn_fin in Hq|]. intros s x y c HI Hc X _.
        pose proof (@cmp_half q r _ Hq Hc) as Hc'. destruct c; [lra| |lra]. clear Hc'.
        destruct (sym_inv_good HI) as [G1 _]. destruct (@good_value _ _ q G1 Hne hist_len) as (x' & X' & X2 & X3). rewrite X in X'. injection X' as <-.
        split; [exact X2|]. rewrite Ht in X3. destruct G1 as ((_ & _ & _ & S4 & _) & G & _).
        pose proof (@half_rank q r t Hq ltac:(lra) Ht) as HT. apply (@value_exact F FO FL k (bs / 2) (rc_levels (low_digest s)) items t x); auto. apply hist_nn.
      Qed.

      Theorem sym_value_high q r t : fval q = XFin r -> (1/2 < r <= 1)%R -> fval (fmul (fsub f1 q) (fofZ (Z.of_nat N))) = XFin t ->
        (t < INR (bs / 2))%R ->
        always (fun x => (exists z, In z items /\ fval x = fval z) /\ (INR (n_lt items x) < INR N - t <= INR (n_le items x))%R) (sym_rc_value lg n k ops q).
      Proof using FL Hp Hu He Hi Hok Hne.
        intros Hq Hr Ht Hb. apply value_from; [now apply nn_fin in Hq|]. intros s x y c HI Hc _ Y.
        pose proof (@cmp_half q r _ Hq Hc) as Hc'. destruct c; [lra|lra|]. clear Hc'.
        destruct (sym_inv_good HI) as [_ G1].
        assert (length (map fneg items) <= n) as HL by (rewrite map_length; exact hist_len).
        destruct (@good_value _ _ (fsub f1 q) G1 (map_fneg_ne Hne) HL) as (y' & Y' & Y2 & Y3). rewrite Y in Y'. injection Y' as <-.
        rewrite map_length, Ht in Y3. destruct G1 as ((_ & _ & _ & S4 & _) & G & _).
        assert (0 <= t < INR N)%R as HT.
        { destruct (@frnd_range F FO FL 0 (1/2) (1 - r)) as (z & Z1 & Z2); [apply fexact_0| |lra|].
          - apply (@fhalf_exact F FO FL 1). pose proof (@fint_ge F FO FL). lia.
          - apply (@half_rank (fsub f1 q) z t); [rewrite (fsub_fin fval_f1 Hq); exact Z1|exact Z2|exact Ht]. }
        assert (INR (n_lt (map fneg items) y) <= t < INR (n_le (map fneg items) y))%R as HE.
        { apply (@value_exact F FO FL k (bs / 2) (rc_levels (high_digest s)) (map fneg items) t y); auto; [apply no_nan_neg, hist_nn|rewrite map_length; exact HT]. }
        assert (fisnan y = false) as Hy.
        { pose proof (no_nan_neg hist_nn) as HN. unfold no_nan in HN. rewrite Forall_forall in HN. now apply HN. }
        pose proof (@n_lt_mirror F FO FL items y hist_nn Hy) as M1. pose proof (@n_le_mirror F FO FL items y hist_nn Hy) as M2.
        apply (f_equal INR) in M1, M2. rewrite plus_INR in M1, M2. split; [|lra].
        apply in_map_iff in Y2 as (z & <- & Hz). exists z. split; [exact Hz|]. rewrite !fneg_val. apply xneg_neg.
      Qed.

      (** anywhere but at the median: the error of one sketch *)
      Lemma good_error s its v h : good s its -> length its < bs * 2 ^ h ->
        (Rabs (INR (lv_rank (rc_levels s) v) - INR (n_le its v)) <= INR (h * length its) / INR k)%R.
      Proof using FL Hp Hu He Hi.
        intros (_ & _ & G) Hh. specialize (G v h Hh). assert (0 < INR k)%R as Hk by (apply lt_0_INR; destruct Hp; lia).
        apply IZR_le in G. rewrite mult_IZR, abs_IZR, minus_IZR, <- !INR_IZR_INZ in G.
        apply Rmult_le_reg_l with (INR k); [exact Hk|]. replace (INR k * (INR (h * length its) / INR k))%R with (INR (h * length its)) by (field; lra). exact G.
      Qed.
      Lemma good_cut s its q t h : good s its -> its <> [] -> no_nan its -> length its <= n -> length its < bs * 2 ^ h ->
        fval (fmul q (fofZ (Z.of_nat (length its)))) = XFin t -> (0 <= t <= INR (length its))%R ->
        exists x, rc_est_value s q = Ret x /\ In x its /\
          (INR (n_lt its x) - INR (h * length its) / INR k <= t <= INR (n_le its x) + INR (h * length its) / INR k)%R.
      Proof using FL Hp Hu He Hi.
        intros G H1 H2 H3 Hh Ht HT. destruct (good_value q G H1 H3) as (x & X1 & X2 & X3). exists x. split; [exact X1|]. split; [exact X2|].
        rewrite Ht in X3. pose proof G as ((_ & S2 & _ & S4 & _) & _ & _).
        apply (@cuts_error F FO FL (rc_levels s) its t x); auto; [lra| | |intros v; now apply good_error].
        - apply Rmult_le_pos; [apply pos_INR|]. apply Rlt_le, Rinv_0_lt_compat, lt_0_INR. destruct Hp; lia.
        - apply value_cut; auto. rewrite S2. exact HT.
      Qed.
      Theorem sym_value_worst q r h : fval q = XFin r -> (0 <= r <= 1)%R -> r <> (1/2)%R -> N < bs * 2 ^ h ->
        exists t t', fval (fmul q (fofZ (Z.of_nat N))) = XFin t /\ fval (fmul (fsub f1 q) (fofZ (Z.of_nat N))) = XFin t' /\
        always (fun x => (exists z, In z items /\ fval x = fval z) /\
            let goal := (if Rlt_dec r (1/2) then t else INR N - t')%R in
            (INR (n_lt items x) - INR (h * N) / INR k <= goal <= INR (n_le items x) + INR (h * N) / INR k)%R) (sym_rc_value lg n k ops q).
      Proof using FL Hp Hu He Hi Hok Hne.
        intros Hq Hr Hr2 Hh. destruct (@rank_of q r Hq Hr hist_len) as (t & Ht & HT). destruct (@other q r Hq Hr) as (r' & Hq' & Hr').
        destruct (@rank_of _ r' Hq' Hr' hist_len) as (t' & Ht' & HT'). exists t, t'. split; [exact Ht|]. split; [exact Ht'|].
        apply value_from; [now apply nn_fin in Hq|]. intros s x y c HI Hc X Y.
        pose proof (@cmp_half q r _ Hq Hc) as Hc'. destruct (sym_inv_good HI) as [G1 G2].
        destruct c; [lra| |].
        - destruct (@good_cut _ _ q t h G1 Hne hist_nn hist_len Hh Ht HT) as (x' & X' & X2 & X3). rewrite X in X'. injection X' as <-.
          split; [eauto|]. destruct (Rlt_dec r (1/2)); [exact X3|lra].
        - assert (length (map fneg items) = N) as EL by apply map_length.
          destruct (@good_cut (high_digest s) (map fneg items) (fsub f1 q) t' h G2 (map_fneg_ne Hne) (no_nan_neg hist_nn)) as (y' & Y' & Y2 & Y3); try (rewrite EL; auto using hist_len).
          rewrite Y in Y'. injection Y' as <-. rewrite EL in Y3.
          assert (fisnan y = false) as Hy.
          { pose proof (no_nan_neg hist_nn) as HN. unfold no_nan in HN. rewrite Forall_forall in HN. now apply HN. }
          pose proof (@n_lt_mirror F FO FL items y hist_nn Hy) as M1. pose proof (@n_le_mirror F FO FL items y hist_nn Hy) as M2.
          apply (f_equal INR) in M1, M2. rewrite plus_INR in M1, M2. split.
          + apply in_map_iff in Y2 as (z & <- & Hz). exists z. split; [exact Hz|]. rewrite !fneg_val. apply xneg_neg.
          + destruct (Rlt_dec r (1/2)); [lra|]. cbv zeta. lra.
      Qed.

      (** quantiles *)
      Lemma quantile_from v (P : F -> Prop) :
        (forall s x y rx ry c, sym_inv s items -> fcmp (fdiv (fadd x (fsub f1 y)) f2) fhalf = Some c ->
            fval x = XFin rx -> (0 <= rx <= 1)%R -> frnd (INR (lv_rank (rc_levels (low_digest s)) v) / INR N) = XFin rx ->
            fval y = XFin ry -> (0 <= ry <= 1)%R -> frnd (INR (lv_rank (rc_levels (high_digest s)) (fneg v)) / INR N) = XFin ry ->
            P (match c with Lt => x | Gt => fsub f1 y | Eq => fdiv (fadd x (fsub f1 y)) f2 end)) ->
        always P (sym_rc_quantile lg n k ops v).
      Proof using FL Hp Hu He Hi Hok Hne.
        intros H. unfold sym_rc_quantile. eapply always_bind; [apply sym_rc_always, Hok|]. intros [s a] HI. cbn [fst] in *.
        destruct (sym_quantile_val v HI Hne) as (x & y & rx & ry & c & E & Hc & X1 & X2 & X3 & Y1 & Y2 & Y3). rewrite E. cbn [bind always snd]. eapply H; eauto.
      Qed.

      Lemma len_pos : (1 <= INR N)%R.
      Proof using FL Hp Hu He Hi Hok Hne. apply (le_INR 1). destruct items; [congruence|cbn; lia]. Qed.
      Lemma frnd_le_exact a b x : (a <= b)%R -> fexact b -> frnd a = XFin x -> (x <= b)%R.
      Proof using FL. intros H1 H2 H3. pose proof (@frnd_mono F FO FL _ _ H1) as H. rewrite H3, (frnd_exact H2) in H. apply xle_iff in H. exact H. Qed.
      Lemma frnd_ge_exact a b x : (a <= b)%R -> fexact a -> frnd b = XFin x -> (a <= x)%R.
      Proof using FL. intros H1 H2 H3. pose proof (@frnd_mono F FO FL _ _ H1) as H. rewrite H3, (frnd_exact H2) in H. apply xle_iff in H. exact H. Qed.

      Hypothesis H8 : forall z, (0 <= z <= 16)%Z -> fexact (IZR z / 8).
      Lemma avg_val x y rx ry : fval x = XFin rx -> (0 <= rx <= 1)%R -> fval y = XFin ry -> (0 <= ry <= 1)%R ->
        exists z w u, frnd (1 - ry) = XFin z /\ frnd (rx + z) = XFin w /\ frnd (w / 2) = XFin u /\ fval (fdiv (fadd x (fsub f1 y)) f2) = XFin u /\ (0 <= z <= 1)%R /\ (0 <= w <= 2)%R.
      Proof using FL Hp Hu He Hi Hok Hne H8.
        intros X2 X3 Y2 Y3. assert (fexact 2) as E2 by (replace 2%R with (16 / 8)%R by lra; apply H8; lia).
        destruct (@frnd_range F FO FL 0 1 (1 - ry)) as (z & Z1 & Z2); [apply fexact_0|apply fexact_1|lra|].
        pose proof (fsub_fin fval_f1 Y2) as S1. rewrite Z1 in S1.
        destruct (@frnd_range F FO FL 0 2 (rx + z)) as (w & W1 & W2); [apply fexact_0|exact E2|lra|].
        pose proof (fadd_fin X2 S1) as S2. rewrite W1 in S2.
        destruct (@frnd_range F FO FL 0 1 (w / 2)) as (u & U1 & U2); [apply fexact_0|apply fexact_1|lra|].
        pose proof (fdiv_fin S2 fval_f2 ltac:(lra)) as S3. rewrite U1 in S3. exists z, w, u. auto 10.
      Qed.
      Lemma pick_low x y rx ry c : fval x = XFin rx -> (0 <= rx <= 1/4)%R -> fval y = XFin ry -> (1/2 <= ry <= 1)%R ->
        fcmp (fdiv (fadd x (fsub f1 y)) f2) fhalf = Some c -> c = Lt.
      Proof using FL Hp Hu He Hi Hok Hne H8.
        intros X1 X2 Y1 Y2 Hc. destruct (@avg_val x y rx ry X1 ltac:(lra) Y1 ltac:(lra)) as (z & w & u & Z & W & U & E & _).
        assert (z <= 4 / 8)%R as B1 by (eapply frnd_le_exact; [|apply H8; lia|exact Z]; lra).
        assert (w <= 6 / 8)%R as B2 by (eapply frnd_le_exact; [|apply H8; lia|exact W]; lra).
        assert (u <= 3 / 8)%R as B3 by (eapply frnd_le_exact; [|apply H8; lia|exact U]; lra).
        pose proof (@cmp_half _ u _ E Hc) as H. destruct c; [lra|reflexivity|lra].
      Qed.
      Lemma pick_high x y rx ry c : fval x = XFin rx -> (1/2 <= rx <= 1)%R -> fval y = XFin ry -> (0 <= ry <= 1/4)%R ->
        fcmp (fdiv (fadd x (fsub f1 y)) f2) fhalf = Some c -> c = Gt.
      Proof using FL Hp Hu He Hi Hok Hne H8.
        intros X1 X2 Y1 Y2 Hc. destruct (@avg_val x y rx ry X1 ltac:(lra) Y1 ltac:(lra)) as (z & w & u & Z & W & U & E & _).
        assert (6 / 8 <= z)%R as B1 by (eapply frnd_ge_exact; [|apply H8; lia|exact Z]; lra).
        assert (10 / 8 <= w)%R as B2 by (eapply frnd_ge_exact; [|apply H8; lia|exact W]; lra).
        assert (5 / 8 <= u)%R as B3 by (eapply frnd_ge_exact; [|apply H8; lia|exact U]; lra).
        pose proof (@cmp_half _ u _ E Hc) as H. destruct c; [lra|lra|reflexivity].
      Qed.
      Lemma frnd_ratio_le a r : 4 * a <= N -> frnd (INR a / INR N) = XFin r -> (r <= 1/4)%R.
      Proof using FL Hp Hu He Hi Hok Hne H8.
        intros H E. replace (1/4)%R with (2/8)%R by lra. eapply frnd_le_exact; [|apply H8; lia|exact E].
        pose proof len_pos. apply le_INR in H. rewrite mult_INR in H. cbn [INR] in H. apply Rmult_le_reg_r with (INR N); [lra|]. unfold Rdiv at 1. rewrite Rmult_assoc, Rinv_l; lra.
      Qed.
      Lemma frnd_ratio_ge a r : (INR N / 2 <= INR a)%R -> frnd (INR a / INR N) = XFin r -> (1/2 <= r)%R.
      Proof using FL Hp Hu He Hi Hok Hne H8.
        intros H E. replace (1/2)%R with (4/8)%R by lra. eapply frnd_ge_exact; [|apply H8; lia|exact E].
        pose proof len_pos. apply Rmult_le_reg_r with (INR N); [lra|]. unfold Rdiv at 2. rewrite Rmult_assoc, Rinv_l; lra.
      Qed.
      Lemma quarter_error h : 4 * h <= k -> (INR (h * N) / INR k <= INR N / 4)%R.
      Proof using FL Hp Hu He Hi Hok Hne H8.
        intros H. apply le_INR in H. rewrite mult_INR in H. cbn [INR] in H. assert (0 < INR k)%R as Hk by (apply lt_0_INR; destruct Hp; lia).
        pose proof len_pos. apply Rmult_le_reg_r with (INR k); [exact Hk|]. unfold Rdiv at 1. rewrite Rmult_assoc, Rinv_l, mult_INR by lra. nra.
      Qed.

      Theorem sym_quantile_low v h : fisnan v = false -> N < bs * 2 ^ h -> 4 * h <= k -> n_le items v <= bs / 2 -> 4 * n_le items v <= N ->
        always (fun a => fval a = frnd (INR (n_le items v) / INR N)) (sym_rc_quantile lg n k ops v).
      Proof using FL Hp Hu He Hi Hok Hne H8.
        intros Hv Hh Hk Hb H4. apply quantile_from. intros s x y rx ry c HI Hc X1 X2 X3 Y1 Y2 Y3.
        destruct (sym_inv_good HI) as [G1 G2]. destruct G1 as (_ & G1 & _).
        rewrite (@guard_exact F FO FL k (bs / 2) _ _ _ G1 Hb) in X3.
        assert (length (map fneg items) = N) as EL by apply map_length.
        pose proof (@good_error _ _ (fneg v) h G2 ltac:(rewrite EL; exact Hh)) as GE. rewrite EL in GE. apply Raux.Rabs_le_inv in GE.
        pose proof (@quarter_error h Hk) as HQ. pose proof len_pos.
        assert (fisnan (fneg v) = false) as Hv' by (now rewrite fisnan_neg).
        pose proof (@n_le_mirror F FO FL items (fneg v) hist_nn Hv') as M.
        assert (n_lt items (fneg (fneg v)) <= n_le items v) as HM.
        { rewrite n_le_lt_eq. unfold n_lt, flt. replace (filter (fun x => match fcmp x (fneg (fneg v)) with Some Lt => true | _ => false end) items)
            with (filter (fun x => match fcmp x v with Some Lt => true | _ => false end) items); [lia|].
          apply filter_ext. intros z. now rewrite !fcmp_val, !fneg_val, xneg_neg. }
        assert (1/2 <= ry)%R as R2.
        { apply (fun H => @frnd_ratio_ge _ _ H Y3). apply (f_equal INR) in M. rewrite plus_INR in M. apply le_INR in HM, H4. rewrite mult_INR in H4. cbn [INR] in H4. lra. }
        rewrite (@pick_low x y rx ry c X1 (conj (proj1 X2) (@frnd_ratio_le _ _ H4 X3)) Y1 (conj R2 (proj2 Y2)) Hc).
        now rewrite X1, X3.
      Qed.

      (** [N - n_lt items v] items are at least [v] *)
      Theorem sym_quantile_high v h : fisnan v = false -> N < bs * 2 ^ h -> 4 * h <= k -> N - n_lt items v <= bs / 2 -> 4 * (N - n_lt items v) <= N ->
        always (fun a => exists y, frnd (INR (N - n_lt items v) / INR N) = XFin y /\ fval a = frnd (1 - y)) (sym_rc_quantile lg n k ops v).
      Proof using FL Hp Hu He Hi Hok Hne H8.
        intros Hv Hh Hk Hb H4. apply quantile_from. intros s x y rx ry c HI Hc X1 X2 X3 Y1 Y2 Y3.
        destruct (sym_inv_good HI) as [G1 G2]. destruct G2 as (_ & G2 & _).
        assert (length (map fneg items) = N) as EL by apply map_length.
        assert (fisnan (fneg v) = false) as Hv' by (now rewrite fisnan_neg).
        pose proof (@n_le_mirror F FO FL items (fneg v) hist_nn Hv') as M.
        assert (n_lt items (fneg (fneg v)) = n_lt items v) as HM.
        { unfold n_lt, flt. f_equal. apply filter_ext. intros z. now rewrite !fcmp_val, !fneg_val, xneg_neg. }
        rewrite HM in M. assert (n_le (map fneg items) (fneg v) = N - n_lt items v) as EM by lia.
        rewrite (@guard_exact F FO FL k (bs / 2) _ _ _ G2 ltac:(rewrite EM; exact Hb)), EM in Y3.
        pose proof (@good_error _ _ v h G1 Hh) as GE. apply Raux.Rabs_le_inv in GE.
        pose proof (@quarter_error h Hk) as HQ. pose proof len_pos.
        assert (n_lt items v <= n_le items v) as HL by (rewrite n_le_lt_eq; lia).
        assert (1/2 <= rx)%R as R2.
        { apply (fun H => @frnd_ratio_ge _ _ H X3). apply le_INR in HL. assert (INR (4 * (N - n_lt items v)) <= INR N)%R as H4' by now apply le_INR.
          rewrite mult_INR, minus_INR in H4' by lia. cbn [INR] in H4'. lra. }
        rewrite (@pick_high x y rx ry c X1 (conj R2 (proj2 X2)) Y1 (conj (proj1 Y2) (@frnd_ratio_le _ _ H4 Y3)) Hc).
        exists ry. split; [exact Y3|]. apply (fsub_fin fval_f1 Y1).
      Qed.
    End After.
  End Fixed.
End RS.
