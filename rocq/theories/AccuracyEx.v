(** Model of the measurements of /repo/examples/accuracy.rs (the error and test functions and the loops that compute the points;
    what is drawn with them is not modelled), and proofs about them. *)
From Coq Require Import List Arith ZArith NArith Lia Bool Permutation Reals Lra.
From Flocq Require Import Core.
From Verif Require Import Base Floats XReal IEEE Digest Spec FloatFacts History LinearProofs TDigest TDigestProofs TDigestTop TDigestRange TDigestRange3
  RCSketch RCProofs RCHist RCRank RCTop RCQuery RCObs RCObs2 Util MultiSymProofs Demo.
Set Implicit Arguments.
Set Universe Polymorphism.
Unset Universe Minimization ToSet.

(* ------------------------------------------------------------------ *)
(** * Definitions *)
Section Defs.
  Context {F : Type} {FO : FloatOps F}.

  (** accuracy.rs:564-569 and 734-739: [error_func] *)
  Definition floored_error (a b : F) : F := fmax f1 (fmul (relative_error a b) (fofZ 1000000)).
  (** accuracy.rs:561-562: [test_func] of value_error_against_quantile *)
  Definition value_test (q : F) (E : digest F) (s : dst E) : M F := do (_, a) <- d_est_v E s q; Ret a.
  (** accuracy.rs:731-732: [test_func] of quantile_error_against_value *)
  Definition quantile_test (v : F) (E : digest F) (s : dst E) : M F := do (_, a) <- d_est_q E s v; Ret a.
  (** accuracy.rs:628-639 (and the loops after it): one line of value_error_against_quantile; [gen i j] is the dataset of the
      [j]-th measurement for the [i]-th quantile *)
  Fixpoint line_from (D : digest F) (test : F -> forall E : digest F, dst E -> M F) (create : list F -> M (dst D))
    (gen : nat -> nat -> list F) (n i : nat) (xs : list F) : M (list (F * list F)) :=
    match xs with
    | [] => Ret []
    | x :: xs' => do m <- sample_digest_accuracy D (gen i) (fun _ => create) (test x) floored_error n;
                  do rest <- line_from D test create gen n (S i) xs';
                  Ret ((x, m) :: rest)
    end.
  Definition value_line D create gen n (quantiles : list F) := line_from D value_test create gen n 0 quantiles.
  (** accuracy.rs:804-821: the values to ask for are the exact values of another dataset *)
  Definition quantile_line D create (first : list F) gen n (quantiles : list F) : M (list (F * list F)) :=
    do values <- values_from_quantiles first quantiles; line_from D quantile_test create gen n 0 values.

  (** accuracy.rs:455-461: the values, asked one after the other of the exact digest (whose state they change) *)
  Fixpoint ask_values (values : list F) (quantiles : list F) : M (list F * list F) :=
    match quantiles with
    | [] => Ret (values, [])
    | q :: qs => do (values, a) <- linear_est_v values q; do (values, rest) <- ask_values values qs; Ret (values, a :: rest)
    end.
  (** accuracy.rs:470-486: the conjunction of the tests [absolute_error(..) < tolerance], the later ones only made if the
      earlier ones succeed *)
  Fixpoint all_close (D : digest F) (s : dst D) (exact : list F) (tests : list (F * F)) : M bool :=
    match tests with
    | [] => Ret true
    | (v, tolerance) :: rest =>
        do (s, a) <- d_est_q D s v;
        if flt (absolute_error a (linear_est_q exact v)) tolerance then all_close D s exact rest else Ret false
    end.
  (** accuracy.rs:454-487: [test_func] of determine_required_parameter; the fifth value is not used *)
  Definition required_quantiles : list F := [frat 1 100000; frat 1 10000; frat 1 1000; frat 1 100; frat 1 10].
  Definition required_tolerances : list F := [frat 1 1000000; frat 1 100000; frat 1 10000; frat 1 1000].
  Definition required_test (D : digest F) (s : dst D) (exact : list F) : M bool :=
    do (exact, values) <- ask_values exact required_quantiles;
    all_close D s exact (combine values required_tolerances).
End Defs.

(* ------------------------------------------------------------------ *)
(** * Proofs *)
Section Proofs.
  Context {F : Type} {FO : FloatOps F} {FL : FloatLaws F}.

  Lemma f1_val : fval (@f1 F FO) = XFin 1.
  Proof. unfold f1. rewrite fofZ_val. apply frnd_exact, fint_exact. pose proof fint_ge. lia. Qed.

  Lemma floored_ge (a b : F) : fle f1 (floored_error a b) = true.
  Proof. unfold floored_error. apply fmax_ge_l. apply fisnan_false. rewrite f1_val. discriminate. Qed.

  Lemma relative_same (x : F) r : fval x = XFin r -> fval (relative_error x x) = XFin 0.
  Proof.
    intros Hx. assert (frnd 0 = XFin 0) as H0 by (apply frnd_exact, (fint_exact 0); pose proof fint_ge; lia).
    destruct (Req_dec r 0) as [->|Hr].
    - rewrite (@relative_zero F FO FL x x 0 Hx Hx). now rewrite Rabs_R0.
    - rewrite (@relative_val F FO FL x x r r 0 Hx Hx Hr); [|now rewrite Rminus_diag_eq].
      unfold Rdiv. now rewrite Rabs_R0, Rmult_0_l.
  Qed.
  Lemma floored_same (x : F) r : (1000000 <= fint)%Z -> fval x = XFin r -> fval (floored_error x x) = XFin 1.
  Proof.
    intros Hi Hx. unfold floored_error. assert (fval (@fofZ F FO 1000000) = XFin 1000000) as HM by (rewrite fofZ_val; apply frnd_exact, fint_exact; lia).
    assert (fval (fmul (relative_error x x) (fofZ 1000000)) = XFin 0) as HZ.
    { rewrite (fmul_fin (relative_same x Hx) HM), Rmult_0_l. apply frnd_exact, (fint_exact 0). lia. }
    unfold fmax. assert (fisnan (@f1 F FO) = false) as -> by (apply fisnan_false; rewrite f1_val; discriminate).
    destruct (fisnan _); [apply f1_val|]. destruct (flt f1 _) eqn:E; [|apply f1_val].
    exfalso. unfold flt in E. rewrite fcmp_val, f1_val, HZ in E. cbn [xcmp] in E. destruct (Rcompare_spec 1 0); try discriminate; lra.
  Qed.

  (** a point of a line: the [n] measurements at [x], none of them below 1 *)
  Definition measured (n : nat) (x : F) (pt : F * list F) : Prop :=
    fst pt = x /\ length (snd pt) = n /\ Forall (fun e => fle f1 e = true) (snd pt).

  Lemma sample_ok (D : digest F) gen create (test : forall E : digest F, dst E -> M F) err (Q : F -> Prop) n :
    (forall j, always (fun s => always (fun a => always (fun b => Q (err a b)) (test (@linear_digest F FO) (gen j))) (test D s)) (create (gen j))) ->
    always (fun es => length es = n /\ Forall Q es) (sample_digest_accuracy D gen (fun _ => create) test err n).
  Proof.
    intros H. unfold sample_digest_accuracy. generalize 0. induction n as [|n IH]; intros j; cbn [seq mapM always length]; [split; [reflexivity|constructor]|].
    eapply always_bind with (P := Q).
    - unfold sample_one. eapply always_bind; [exact (H j)|]. intros s Hs. cbn beta in Hs. eapply always_bind; [exact Hs|]. intros a Ha. cbn beta in Ha.
      eapply always_bind; [exact Ha|]. intros b Hb. exact Hb.
    - intros e He. eapply always_bind; [exact (IH (S j))|]. intros es [Hl Hes]. cbn [always length]. split; [lia|constructor; auto].
  Qed.

  Lemma line_ok (D : digest F) test create gen n xs :
    (forall x i j, In x xs -> always (fun s => always (fun _ => True) (test x D s)) (create (gen i j)) /\ always (fun _ => True) (test x (@linear_digest F FO) (gen i j))) ->
    forall i, always (fun pts => Forall2 (measured n) xs pts) (line_from D test create gen n i xs).
  Proof.
    induction xs as [|x xs IH]; intros H i; cbn [line_from always]; [constructor|].
    eapply always_bind.
    - apply (@sample_ok D (gen i) create (test x) floored_error (fun e => fle f1 e = true) n). intros j. destruct (H x i j (or_introl eq_refl)) as [H1 H2].
      eapply always_mono; [exact H1|]. cbn beta. intros s Hs. eapply always_mono; [exact Hs|]. intros a _. eapply always_mono; [exact H2|]. intros b _. apply floored_ge.
    - intros m [Hl Hm]. eapply always_bind; [apply IH; intros; apply H; now right|]. intros rest Hr. cbn [always]. constructor; [|exact Hr].
      repeat split; assumption.
  Qed.

  Theorem value_line_ok (D : digest F) create gen n qs : Forall a_quantile qs -> (forall i j, usable (gen i j)) ->
    (forall q i j, a_quantile q -> always (fun s => always (fun _ => True) (d_est_v D s q)) (create (gen i j))) ->
    always (fun pts => Forall2 (measured n) qs pts) (value_line D create gen n qs).
  Proof.
    intros Hq Hg H. apply line_ok. intros q i j Hin. rewrite Forall_forall in Hq. specialize (Hq q Hin). split.
    - eapply always_mono; [exact (H q i j Hq)|]. cbn beta. intros s Hs. unfold value_test. eapply always_bind; [exact Hs|]. intros [s' a] _. exact I.
    - unfold value_test. eapply always_bind; [exact (linear_exact (Hg i j) Hq)|]. intros [s' a] _. exact I.
  Qed.

  Theorem quantile_line_ok (D : digest F) create first gen n qs : Forall a_quantile qs -> usable first ->
    (forall v i j, In v first -> always (fun s => always (fun _ => True) (d_est_q D s v)) (create (gen i j))) ->
    always (fun pts => exists vs, Forall2 (exact_value first) qs vs /\ Forall2 (measured n) vs pts) (quantile_line D create first gen n qs).
  Proof.
    intros Hq Hf H. unfold quantile_line. eapply always_bind; [exact (values_from_quantiles_exact Hf Hq)|]. intros vs Hvs.
    eapply always_mono; [|intros pts Hp; exists vs; split; [exact Hvs|exact Hp]].
    assert (Forall (fun v => In v first) vs) as Hin.
    { clear - Hvs. induction Hvs as [|q v qs vs (r & p & _ & _ & _ & Ho) _ IH]; constructor; [|exact IH]. apply Ho. }
    rewrite Forall_forall in Hin. apply line_ok. intros v i j Hv. split.
    - eapply always_mono; [exact (H v i j (Hin v Hv))|]. cbn beta. intros s Hs. unfold quantile_test. eapply always_bind; [exact Hs|]. intros [s' a] _. exact I.
    - exact I.
  Qed.

  (** ** the RCSketch lines *)
  Lemma rc_created lg k dataset : dataset <> [] -> no_nan dataset -> rc_params lg (length dataset) k -> (N.of_nat (length dataset / k) <= u32_max)%N ->
    always (fun s => (forall v, always (fun _ => True) (d_est_q rc_digest s v)) /\
                     (Nat.even k = true -> forall q, always (fun r => In (snd r) dataset) (d_est_v rc_digest s q))) (demo_rc lg k dataset).
  Proof.
    intros Hne Hn Hp Hu. unfold demo_rc. rewrite (rc_new_val Hp). cbn [bind]. set (n := length dataset) in *.
    pose proof Hp as (Hk & _).
    assert (reached n k (rc_fresh n k) []) as H0 by (exists []; repeat split; constructor).
    eapply always_mono; [exact (@reached_step F FO FL n k (rc_fresh n k) [] (RBuf dataset) Hk Hu H0 (Forall_nil _) eq_refl eq_refl Hn (le_n n))|].
    cbn [app ritems]. intros s Hs.
    destruct (reached_facts Hk Hu Hs Hn (le_n n)) as (_ & B2 & B3 & B4 & B5 & B6). split.
    - intros v. cbn [d_est_q rc_digest]. unfold rc_est_quantile. rewrite interpolate_rank_val by assumption. exact I.
    - intros He q. cbn [d_est_v rc_digest]. eapply always_bind; [apply rc_est_value_ok; auto|]. intros x Hx. cbn [always snd]. auto.
  Qed.

  Theorem rc_value_line lg k N gen n qs : rc_params lg N k -> Nat.even k = true -> (N.of_nat (N / k) <= u32_max)%N ->
    Forall a_quantile qs -> (forall i j, usable (gen i j) /\ length (gen i j) = N) ->
    always (fun pts => Forall2 (measured n) qs pts) (value_line rc_digest (demo_rc lg k) gen n qs).
  Proof.
    intros Hp He Hu Hq Hg. apply value_line_ok; [exact Hq|intros; apply Hg|]. intros q i j _. destruct (Hg i j) as [(Hne & Hn & _) Hl].
    rewrite <- Hl in Hp, Hu. eapply always_mono; [exact (rc_created Hne Hn Hp Hu)|]. cbn beta. intros s [_ H].
    eapply always_mono; [exact (H He q)|]. intros; exact I.
  Qed.
  Theorem rc_quantile_line lg k N first gen n qs : rc_params lg N k -> (N.of_nat (N / k) <= u32_max)%N ->
    Forall a_quantile qs -> usable first -> (forall i j, usable (gen i j) /\ length (gen i j) = N) ->
    always (fun pts => exists vs, Forall2 (exact_value first) qs vs /\ Forall2 (measured n) vs pts) (quantile_line rc_digest (demo_rc lg k) first gen n qs).
  Proof.
    intros Hp Hu Hq Hf Hg. apply quantile_line_ok; [exact Hq|exact Hf|]. intros v i j _. destruct (Hg i j) as [(Hne & Hn & _) Hl].
    rewrite <- Hl in Hp, Hu. eapply always_mono; [exact (rc_created Hne Hn Hp Hu)|]. cbn beta. intros s [H _]. exact (H v).
  Qed.

  (** ** the test of determine_required_parameter *)
  Lemma ask_values_ok qs : Forall a_quantile qs -> forall l, usable l ->
    always (fun r => Permutation l (fst r) /\ Forall2 (exact_value l) qs (snd r)) (ask_values l qs).
  Proof.
    induction 1 as [|q qs Hq Hqs IH]; intros l Hl; cbn [ask_values always fst snd]; [split; [reflexivity|constructor]|].
    eapply always_bind; [exact (linear_exact Hl Hq)|]. intros [l' a] [HP Ha]; cbn [fst snd] in *.
    eapply always_bind; [exact (IH l' (usable_perm HP Hl))|]. intros [l'' xs] [HP' Hxs]. cbn [always fst snd] in *.
    split; [exact (Permutation_trans HP HP')|]. constructor; [exact Ha|].
    clear - HP Hxs. induction Hxs; constructor; auto. eapply exact_perm; eauto.
  Qed.

  Lemma close_pass (D : digest F) (P : dst D -> Prop) exact tests : (forall s v t, P s -> In (v, t) tests ->
      always (fun r => P (fst r) /\ flt (absolute_error (snd r) (linear_est_q exact v)) t = true) (d_est_q D s v)) ->
    forall s, P s -> always (fun b => b = true) (all_close D s exact tests).
  Proof.
    induction tests as [|[v t] tests IH]; intros H s Hs; cbn [all_close always]; [reflexivity|].
    eapply always_bind; [exact (H s v t Hs (or_introl eq_refl))|]. intros [s' a] [Hs' E]. cbn [fst snd] in *. rewrite E.
    apply IH; [|exact Hs']. intros s0 v0 t0 H0 Hin. apply H; [exact H0|now right].
  Qed.
  Lemma close_fail (D : digest F) (P : dst D -> Prop) exact tests v0 t0 : In (v0, t0) tests -> (forall s v t, P s -> In (v, t) tests ->
      always (fun r => P (fst r) /\ ((v, t) = (v0, t0) -> flt (absolute_error (snd r) (linear_est_q exact v0)) t0 = false)) (d_est_q D s v)) ->
    forall s, P s -> always (fun b => b = false) (all_close D s exact tests).
  Proof.
    intros Hin0 H. assert (forall l, incl l tests -> In (v0, t0) l -> forall s, P s -> always (fun b => b = false) (all_close D s exact l)) as HH; [|apply HH; auto using incl_refl].
    induction l as [|[v t] l IH]; intros Hi Hin s Hs; [destruct Hin|]. cbn [all_close].
    eapply always_bind; [exact (H s v t Hs (Hi _ (or_introl eq_refl)))|]. intros [s' a] [Hs' E]. cbn [fst snd] in *.
    destruct (flt (absolute_error a (linear_est_q exact v)) t) eqn:E1; [|reflexivity].
    destruct Hin as [Heq|Hin]; [injection Heq as -> ->; rewrite E in E1 by reflexivity; discriminate|].
    apply IH; auto. intros x Hx. apply Hi. now right.
  Qed.

  Lemma required_are_quantiles : (1000000 <= fint)%Z -> Forall a_quantile (@required_quantiles F FO).
  Proof.
    intros Hi. assert (forall q : positive, (Zpos q <= fint)%Z -> a_quantile (@frat F FO 1 q)) as HQ.
    { intros q Hq. unfold a_quantile. rewrite frat_val by lia.
      assert (0 <= 1 / IZR (Zpos q) <= 1)%R as [A B].
      { assert (1 <= IZR (Zpos q))%R by (apply IZR_le; lia). split; [apply Rlt_le, Rdiv_lt_0_compat; lra|]. apply Rmult_le_reg_r with (IZR (Zpos q)); [lra|]. unfold Rdiv. rewrite Rmult_assoc, Rinv_l by lra. lra. }
      apply frnd_mono in A, B. rewrite (@frnd_exact F FO FL 0) in A by (apply (fint_exact 0); lia). rewrite (@frnd_exact F FO FL 1) in B by (apply (fint_exact 1); lia).
      destruct (frnd (1 / IZR (Zpos q))) as [|[]|r]; [destruct A as [A|A]; discriminate|destruct A as [A|A]; discriminate|destruct B as [B|B]; discriminate|].
      apply xle_fin in A, B. exists r. split; [reflexivity|]. lra. }
    unfold required_quantiles. repeat constructor; apply HQ; lia.
  Qed.

  (** how the test comes out is decided at the exact values of the dataset *)
  Theorem required_pass (D : digest F) (P : dst D -> Prop) dataset s : (1000000 <= fint)%Z -> usable dataset -> P s ->
    (forall s v t, P s -> In v dataset -> In t required_tolerances ->
      always (fun r => P (fst r) /\ flt (absolute_error (snd r) (linear_est_q dataset v)) t = true) (d_est_q D s v)) ->
    always (fun b => b = true) (required_test D s dataset).
  Proof.
    intros Hi Hd Hs H. unfold required_test. eapply always_bind; [exact (ask_values_ok (required_are_quantiles Hi) Hd)|].
    intros [l vs] [HP Hvs]. cbn [fst snd] in *. apply (@close_pass D P); [|exact Hs]. intros s0 v t H0 Hin.
    rewrite <- (linear_est_q_perm v HP). apply H; [exact H0| |exact (in_combine_r _ _ _ _ Hin)].
    apply in_combine_l in Hin. clear - Hvs Hin. induction Hvs as [|q x qs vs (r & p & _ & _ & _ & Ho) _ IH]; [destruct Hin|].
    destruct Hin as [<-|Hin]; [apply Ho|auto].
  Qed.

  (** the exact digest passes *)
  Theorem required_linear dataset : (1000000 <= fint)%Z -> usable dataset -> (2 * Z.of_nat (length dataset) <= fint)%Z ->
    Forall (fun t => flt f0 t = true) (@required_tolerances F FO) ->
    always (fun b => b = true) (required_test (@linear_digest F FO) dataset dataset).
  Proof.
    intros Hi Hd Hl Ht. apply (@required_pass (@linear_digest F FO) (fun s => s = dataset)); [exact Hi|exact Hd|reflexivity|].
    intros s v t -> _ Hin. cbn [d_est_q linear_digest always fst snd]. split; [reflexivity|].
    rewrite Forall_forall in Ht. specialize (Ht t Hin). destruct (@linear_est_q_range F FO FL dataset v (proj1 Hd) Hl) as (r & Hr & _).
    assert (fval (absolute_error (linear_est_q dataset v) (linear_est_q dataset v)) = fval (@f0 F FO)) as E.
    { rewrite (@absolute_val F FO FL _ _ r r Hr Hr), Rminus_diag_eq by reflexivity. rewrite (@frnd_exact F FO FL 0) by (apply (fint_exact 0); lia).
      cbn [xabs]. rewrite Rabs_R0. unfold f0. rewrite fofZ_val. symmetry. apply frnd_exact, (fint_exact 0). lia. }
    unfold flt in *. rewrite fcmp_val in *. rewrite E. exact Ht.
  Qed.
End Proofs.

(** the t-digest lines in IEEE arithmetic ([f32]); the scale functions are arbitrary *)
Lemma usable32 dataset : dataset <> [] -> Forall moderate32 dataset -> (Z.of_nat (length dataset) <= 2 ^ 23)%Z -> usable (dataset : list f32).
Proof.
  intros Hne Hm Hl. split; [exact Hne|]. split.
  - eapply Forall_impl; [|exact Hm]. intros x (r & Hr & _). apply fisnan_false. rewrite Hr. discriminate.
  - split; [|lia]. eapply Z.le_trans; [exact Hl|]. discriminate.
Qed.
Lemma t_created32 (cfg : tcfg f32) (Hlib : lib_ok cfg) chunk dataset : Forall moderate32 dataset -> (Z.of_nat (length dataset) <= 2 ^ 23)%Z -> 1 <= chunk ->
  always (fun s => (forall v, fisnan v = false -> always (fun _ => True) (d_est_q (t_digest cfg) s v)) /\
                   (forall q, a_quantile q -> always (fun _ => True) (d_est_v (t_digest cfg) s q))) (demo_t cfg chunk dataset).
Proof.
  intros Hm Hl Hc. unfold demo_t, chunks. destruct chunk as [|c]; [lia|]. cbn [bind].
  apply (@fold_exec f32 (t_digest cfg)). eapply always_mono.
  - apply (@td_total_f32 cfg Hlib).
    + apply Forall_map. eapply Forall_impl; [|exact (forall_chunks Hc Hm)]. intros l H. exact H.
    + rewrite items_bufs, chunks_list_concat by exact Hc. exact Hl.
  - cbn beta. intros r (_ & H1 & H2). split.
    + intros v Hv. destruct (H1 v Hv) as (a & Ha). match goal with |- always _ ?m => replace m with (Ret (fst r, a)) by (symmetry; exact Ha) end. exact I.
    + intros q (p & Hp & Hp'). destruct (H2 q p Hp Hp') as (a & Ha). match goal with |- always _ ?m => replace m with (Ret (fst r, a)) by (symmetry; exact Ha) end. exact I.
Qed.
Theorem t_value_line32 (cfg : tcfg f32) (Hlib : lib_ok cfg) chunk gen n qs : 1 <= chunk -> Forall a_quantile qs ->
  (forall i j, gen i j <> [] /\ Forall moderate32 (gen i j) /\ (Z.of_nat (length (gen i j)) <= 2 ^ 23)%Z) ->
  always (fun pts => Forall2 (measured n) qs pts) (value_line (t_digest cfg) (demo_t cfg chunk) gen n qs).
Proof.
  intros Hc Hq Hg. apply value_line_ok; [exact Hq|intros i j; destruct (Hg i j) as (A & B & C); now apply usable32|]. intros q i j Hqq. destruct (Hg i j) as (A & B & C).
  eapply always_mono; [exact (t_created32 Hlib B C Hc)|]. cbn beta. intros s [_ H]. exact (H q Hqq).
Qed.
Theorem t_quantile_line32 (cfg : tcfg f32) (Hlib : lib_ok cfg) chunk first gen n qs : 1 <= chunk -> Forall a_quantile qs -> usable first ->
  (forall i j, gen i j <> [] /\ Forall moderate32 (gen i j) /\ (Z.of_nat (length (gen i j)) <= 2 ^ 23)%Z) ->
  always (fun pts => exists vs, Forall2 (exact_value first) qs vs /\ Forall2 (measured n) vs pts) (quantile_line (t_digest cfg) (demo_t cfg chunk) first gen n qs).
Proof.
  intros Hc Hq Hf Hg. apply quantile_line_ok; [exact Hq|exact Hf|]. intros v i j Hv. destruct (Hg i j) as (A & B & C).
  eapply always_mono; [exact (t_created32 Hlib B C Hc)|]. cbn beta. intros s [H _]. apply H.
  destruct Hf as (_ & Hn & _). unfold no_nan in Hn. rewrite Forall_forall in Hn. now apply Hn.
Qed.

(** the t-digest lines in IEEE arithmetic ([f64]); the scale functions are arbitrary *)
Lemma usable64 dataset : dataset <> [] -> Forall moderate dataset -> (Z.of_nat (length dataset) <= 2 ^ 52)%Z -> usable (dataset : list f64).
Proof.
  intros Hne Hm Hl. split; [exact Hne|]. split.
  - eapply Forall_impl; [|exact Hm]. intros x (r & Hr & _). apply fisnan_false. rewrite Hr. discriminate.
  - split; [|lia]. eapply Z.le_trans; [exact Hl|]. discriminate.
Qed.
Lemma t_created64 (cfg : tcfg f64) (Hlib : lib_ok cfg) chunk dataset : Forall moderate dataset -> (Z.of_nat (length dataset) <= 2 ^ 52)%Z -> 1 <= chunk ->
  always (fun s => (forall v, fisnan v = false -> always (fun _ => True) (d_est_q (t_digest cfg) s v)) /\
                   (forall q, a_quantile q -> always (fun _ => True) (d_est_v (t_digest cfg) s q))) (demo_t cfg chunk dataset).
Proof.
  intros Hm Hl Hc. unfold demo_t, chunks. destruct chunk as [|c]; [lia|]. cbn [bind].
  apply (@fold_exec f64 (t_digest cfg)). eapply always_mono.
  - apply (@td_f64_total cfg Hlib).
    + apply Forall_map. eapply Forall_impl; [|exact (forall_chunks Hc Hm)]. intros l H. exact H.
    + rewrite items_bufs, chunks_list_concat by exact Hc. exact Hl.
  - cbn beta. intros r (_ & H1 & H2). split.
    + intros v Hv. destruct (H1 v Hv) as (a & Ha). match goal with |- always _ ?m => replace m with (Ret (fst r, a)) by (symmetry; exact Ha) end. exact I.
    + intros q (p & Hp & Hp'). destruct (H2 q p Hp Hp') as (a & Ha). match goal with |- always _ ?m => replace m with (Ret (fst r, a)) by (symmetry; exact Ha) end. exact I.
Qed.
Theorem t_value_line64 (cfg : tcfg f64) (Hlib : lib_ok cfg) chunk gen n qs : 1 <= chunk -> Forall a_quantile qs ->
  (forall i j, gen i j <> [] /\ Forall moderate (gen i j) /\ (Z.of_nat (length (gen i j)) <= 2 ^ 52)%Z) ->
  always (fun pts => Forall2 (measured n) qs pts) (value_line (t_digest cfg) (demo_t cfg chunk) gen n qs).
Proof.
  intros Hc Hq Hg. apply value_line_ok; [exact Hq|intros i j; destruct (Hg i j) as (A & B & C); now apply usable64|]. intros q i j Hqq. destruct (Hg i j) as (A & B & C).
  eapply always_mono; [exact (t_created64 Hlib B C Hc)|]. cbn beta. intros s [_ H]. exact (H q Hqq).
Qed.
Theorem t_quantile_line64 (cfg : tcfg f64) (Hlib : lib_ok cfg) chunk first gen n qs : 1 <= chunk -> Forall a_quantile qs -> usable first ->
  (forall i j, gen i j <> [] /\ Forall moderate (gen i j) /\ (Z.of_nat (length (gen i j)) <= 2 ^ 52)%Z) ->
  always (fun pts => exists vs, Forall2 (exact_value first) qs vs /\ Forall2 (measured n) vs pts) (quantile_line (t_digest cfg) (demo_t cfg chunk) first gen n qs).
Proof.
  intros Hc Hq Hf Hg. apply quantile_line_ok; [exact Hq|exact Hf|]. intros v i j Hv. destruct (Hg i j) as (A & B & C).
  eapply always_mono; [exact (t_created64 Hlib B C Hc)|]. cbn beta. intros s [H _]. apply H.
  destruct Hf as (_ & Hn & _). unfold no_nan in Hn. rewrite Forall_forall in Hn. now apply Hn.
Qed.

(** the literal tolerances are positive, the literal quantiles are quantiles *)
Theorem required_linear64 (dataset : list f64) : usable dataset -> (2 * Z.of_nat (length dataset) <= 2 ^ 53)%Z ->
  always (fun b => b = true) (required_test (@linear_digest f64 _) dataset dataset).
Proof. intros Hd Hl. apply required_linear; [discriminate|exact Hd|exact Hl|]. repeat constructor. Qed.
Theorem required_linear32 (dataset : list f32) : usable dataset -> (2 * Z.of_nat (length dataset) <= 2 ^ 24)%Z ->
  always (fun b => b = true) (required_test (@linear_digest f32 _) dataset dataset).
Proof. intros Hd Hl. apply required_linear; [discriminate|exact Hd|exact Hl|]. repeat constructor. Qed.

(* ------------------------------------------------------------------ *)
(** * RCSketch and the test of determine_required_parameter *)
Section Fail.
  Context {F : Type} {FO : FloatOps F} {FL : FloatLaws F}.
  Lemma always_all {A X} (x0 : X) (P : X -> A -> Prop) (m : M A) : (forall x, always (P x) m) -> always (fun a => forall x, P x a) m.
  Proof.
    induction m as [a| | |k IH]; cbn [always]; intros H; [exact H|exact (H x0)|exact (H x0)|].
    intros b. apply IH. intros x. exact (H x b).
  Qed.

  (** small ranks are exact *)
  Lemma rc_small_rank lg k (dataset : list F) bs : dataset <> [] -> no_nan dataset -> rc_params lg (length dataset) k ->
    (N.of_nat (length dataset / k) <= u32_max)%N -> calc_buffer_size lg (length dataset) k = Ret bs ->
    always (fun s => forall v, n_le dataset v <= bs / 2 ->
      d_est_q rc_digest s v = Ret (s, fdiv (fofZ (Z.of_nat (n_le dataset v))) (fof_nat (length dataset)))) (demo_rc lg k dataset).
  Proof.
    intros Hne Hn Hp Hu Hb. apply (always_all (@f0 F FO)). intros v.
    destruct (le_lt_dec (n_le dataset v) (bs / 2)) as [Hv|Hv].
    2: { eapply always_mono; [exact (rc_created Hne Hn Hp Hu)|]. intros s _ H. lia. }
    assert (ritems_of [RBuf dataset] = dataset) as Ei by (cbn; apply app_nil_r).
    pose proof (@rank_smallest F FO FL lg (length dataset) k [RBuf dataset] v bs) as HR. rewrite Ei in HR.
    assert (always (fun z => z = Z.of_nat (n_le dataset v)) (rank_after lg (length dataset) k [RBuf dataset] v)) as HA.
    { apply HR; [split; [exact Hp|]; split; [right; rewrite Ei; split; [lia|exact Hu]|rewrite Ei; exact Hn]| | |exact Hb|exact Hv].
      - repeat constructor.
      - right. rewrite Ei. split; [repeat constructor|]. split; [lia|exact Hu]. }
    unfold rank_after, rc_run in HA. rewrite (rc_new_val Hp) in HA. cbn [bind rexec foldM] in HA. unfold demo_rc. rewrite (rc_new_val Hp). cbn [bind].
    rewrite !always_bind_iff in HA. cbn [always] in HA. set (n := length dataset) in *.
    pose proof Hp as (Hk & _).
    assert (reached n k (rc_fresh n k) []) as H0 by (exists []; repeat split; constructor).
    pose proof (@reached_step F FO FL n k (rc_fresh n k) [] (RBuf dataset) Hk Hu H0 (Forall_nil _) eq_refl eq_refl Hn (le_n n)) as HS.
    eapply always_mono; [exact (always_and _ _ _ HA HS)|]. cbn [app ritems]. intros s [H1 Hs] _.
    destruct (reached_facts Hk Hu Hs Hn (le_n n)) as (B1 & B2 & _).
    rewrite interpolate_rank_val in H1 by exact B2. cbn [always] in H1.
    cbn [d_est_q rc_digest]. unfold rc_est_quantile. rewrite interpolate_rank_val by exact B2. cbn [bind]. rewrite H1, B1. reflexivity.
  Qed.

  Theorem rc_required_fails lg k (dataset : list F) bs : (1000000 <= fint)%Z -> usable dataset -> rc_params lg (length dataset) k ->
    (N.of_nat (length dataset / k) <= u32_max)%N -> calc_buffer_size lg (length dataset) k = Ret bs ->
    (forall v, exact_value dataset (frat 1 100000) v -> n_le dataset v <= bs / 2 /\
      flt (absolute_error (fdiv (fofZ (Z.of_nat (n_le dataset v))) (fof_nat (length dataset))) (linear_est_q dataset v)) (frat 1 1000000) = false) ->
    always (fun s => always (fun b => b = false) (required_test rc_digest s dataset)) (demo_rc lg k dataset).
  Proof.
    intros Hi Hd Hp Hu Hb H. pose proof Hd as (Hne & Hn & _). eapply always_mono; [exact (rc_small_rank Hne Hn Hp Hu Hb)|]. cbn beta. intros s Hs.
    unfold required_test. eapply always_bind; [exact (ask_values_ok (required_are_quantiles Hi) Hd)|].
    intros [l vs] [HP Hvs]. cbn [fst snd] in *. inversion Hvs as [|q v qs' vs' Hv _]; subst. destruct (H v Hv) as [H1 H2].
    unfold required_tolerances. cbn [combine all_close]. rewrite (Hs v H1). cbn [bind].
    match goal with |- always _ (if ?c then _ else _) => assert (c = false) as -> end; [|reflexivity].
    refine (eq_trans (f_equal (fun z => flt (absolute_error _ z) _) (eq_sym (@linear_est_q_perm F FO dataset l v HP))) H2).
  Qed.
End Fail.

(** in exact arithmetic it fails for every dataset of at most a million numbers: the rank RCSketch finds counts the value itself,
    the exact digest does not (or counts half of several equal ones), and a difference of one item is not below 10^-6 *)
#[local] Instance FLm : FloatLaws xr := @xr_laws (2 ^ 53) ltac:(discriminate).
Theorem rc_required_fails_exact lg k (dataset : list xr) bs : usable dataset -> length dataset <= Z.to_nat 1000000 -> rc_params lg (length dataset) k ->
  (N.of_nat (length dataset / k) <= u32_max)%N -> calc_buffer_size lg (length dataset) k = Ret bs ->
  (forall v, exact_value dataset (frat 1 100000) v -> n_le dataset v <= bs / 2) ->
  always (fun s => always (fun b => b = false) (required_test rc_digest s dataset)) (demo_rc lg k dataset).
Proof.
  intros Hd Hn Hp Hu Hb H. apply (@rc_required_fails xr _ FLm lg k dataset bs); auto; [discriminate|]. intros v Hv. split; [exact (H v Hv)|].
  destruct Hv as (r & p & _ & _ & _ & Hin & Ho). pose proof Hd as (Hne & _).
  assert (Z.of_nat (length dataset) <= 1000000)%Z as Hn' by lia.
  assert (1 <= length dataset) as H1 by (destruct dataset; [congruence|cbn; lia]).
  assert (1 <= n_eq dataset v) as HE by (rewrite n_le_lt_eq in Ho; lia).
  assert (0 < INR (length dataset) <= 1000000)%R as [Hpos Hle].
  { split; [apply lt_0_INR; lia|]. rewrite INR_IZR_INZ. apply IZR_le. exact Hn'. }
  assert (fval (linear_est_q dataset v) = XFin (mid_rank dataset v / INR (length dataset))) as EL by (apply (@linear_est_q_exact xr _ FLm dataset v Hne); change (2 * Z.of_nat (length dataset) <= 2 ^ 53)%Z; lia).
  assert (fval (fdiv (fofZ (Z.of_nat (n_le dataset v))) (fof_nat (length dataset)) : xr) = XFin (INR (n_le dataset v) / INR (length dataset))) as ER.
  { rewrite (fdiv_fin (x := fofZ (Z.of_nat (n_le dataset v))) (y := fof_nat (length dataset)) (a := INR (n_le dataset v)) (b := INR (length dataset))); [reflexivity| | |lra];
      cbn; now rewrite INR_IZR_INZ. }
  assert (1 <= INR (n_le dataset v) - mid_rank dataset v)%R as HD.
  { unfold mid_rank. rewrite n_le_lt_eq, plus_INR. apply le_INR in HE. change (INR 1) with 1%R in HE. destruct (2 <=? n_eq dataset v) eqn:E2; [|lra].
    apply Nat.leb_le, le_INR in E2. change (INR 2) with 2%R in E2. lra. }
  pose proof (@absolute_val xr _ FLm _ _ _ _ ER EL) as EA. unfold flt. rewrite fcmp_val, EA. cbn [frnd FLm xr_laws xabs].
  assert (fval (frat 1 1000000 : xr) = XFin (1 / 1000000)) as -> by reflexivity.
  assert (1 / 1000000 <= Rabs (INR (n_le dataset v) / INR (length dataset) - mid_rank dataset v / INR (length dataset)))%R as HG.
  { rewrite <- Rdiv_minus_distr, Rabs_pos_eq by (apply Rlt_le, Rdiv_lt_0_compat; lra).
    apply Rmult_le_reg_r with (INR (length dataset)); [lra|]. unfold Rdiv at 2. rewrite Rmult_assoc, Rinv_l by lra. lra. }
  cbn [xcmp]. destruct (Rcompare_spec (Rabs (INR (n_le dataset v) / INR (length dataset) - mid_rank dataset v / INR (length dataset))) (1 / 1000000)); try reflexivity. lra.
Qed.
