(** RCSketch: weight, space, rank error and the exactly kept small items. *)
From Coq Require Import List Arith ZArith NArith Lia Bool Permutation Sorted.
From Verif Require Import Base Floats Digest Spec FloatFacts History TDigest RCSketch RCProofs RCHist.
Set Implicit Arguments.
Local Open Scope nat_scope.

(** allowance in the count of items promoted by compactions of odd sizes; repeats every four compactions *)
Definition slack (c : N) : Z := match (c mod 4)%N with 0%N => 0%Z | 1%N => 4%Z | 2%N => (-2)%Z | _ => 2%Z end.
Lemma slack_step c :
  (slack (c + 1) - slack c = 4 /\ trailing_ones c = 0%nat)%Z \/ (slack (c + 1) - slack c = -6 /\ trailing_ones c = 1%nat)%Z \/
  (slack (c + 1) - slack c = -2 /\ (2 <= trailing_ones c)%nat)%Z.
Proof.
  unfold slack.
  assert (forall d e, ((4 * d + e) mod 4 = e mod 4)%N) as Hm.
  { intros d e. rewrite N.mul_comm, N.add_comm, N.mod_add by lia. reflexivity. }
  assert (exists d e, c = (4 * d + e)%N /\ (e < 4)%N) as (d & e & E & He).
  { exists (c / 4)%N, (c mod 4)%N. split; [apply N.div_mod; lia|apply N.mod_lt; lia]. }
  subst c. rewrite <- N.add_assoc, !Hm.
  assert (e = 0 \/ e = 1 \/ e = 2 \/ e = 3)%N as [->|[->|[->| ->]]] by lia; cbn [N.add].
  - left. split; [reflexivity|]. destruct d; reflexivity.
  - right. left. split; [reflexivity|]. destruct d; reflexivity.
  - left. split; [reflexivity|]. destruct d; reflexivity.
  - right. right. split; [reflexivity|]. destruct d; cbn; lia.
Qed.

Section RCR.
  Context {F : Type} {FO : FloatOps F} {FL : FloatLaws F}.
  Notation level := (@level F).

  (** total weight, weighted rank and weighted number of compactions: an item of level i weighs 2^i *)
  Fixpoint lv_weight (lv : list level) : nat :=
    match lv with [] => 0 | (b, _) :: up => length b + 2 * lv_weight up end.
  Fixpoint lv_rank (lv : list level) (v : F) : nat :=
    match lv with [] => 0 | (b, _) :: up => n_le b v + 2 * lv_rank up v end.
  Fixpoint lv_compactions (lv : list level) : nat :=
    match lv with [] => 0 | (_, c) :: up => N.to_nat c + 2 * lv_compactions up end.

  Lemma rank_from_val (lv : list level) v i : (0 <= i)%Z -> rank_from i lv v = (2 ^ i * Z.of_nat (lv_rank lv v))%Z.
  Proof.
    revert i. induction lv as [|[b c] up IH]; intros i Hi; cbn [rank_from lv_rank]; [lia|].
    rewrite IH by lia. rewrite Z.pow_add_r by lia. unfold n_le. change (2 ^ 1)%Z with 2%Z. nia.
  Qed.

  Lemma lv_rank_le_weight lv v : lv_rank lv v <= lv_weight lv.
  Proof.
    induction lv as [|[b c] up IH]; cbn [lv_rank lv_weight]; [lia|]. pose proof (n_le_length b v). lia.
  Qed.
  Lemma lv_rank_mono lv v1 v2 : fle v1 v2 = true -> lv_rank lv v1 <= lv_rank lv v2.
  Proof.
    intros H. induction lv as [|[b c] up IH]; cbn [lv_rank]; [lia|]. pose proof (n_le_mono b _ _ H). lia.
  Qed.
  Lemma lv_rank_all lv v : all_in (fun x => fle x v = true) lv -> lv_rank lv v = lv_weight lv.
  Proof.
    induction 1 as [|[b c] up Hb _ IH]; cbn [lv_rank lv_weight]; [reflexivity|].
    rewrite IH. unfold n_le. cbn [fst] in Hb. rewrite filter_all by assumption. lia.
  Qed.
  Lemma lv_rank_none lv v : all_in (fun x => fle x v = false) lv -> lv_rank lv v = 0.
  Proof.
    induction 1 as [|[b c] up Hb _ IH]; cbn [lv_rank]; [reflexivity|].
    rewrite IH. unfold n_le. cbn [fst] in Hb. rewrite filter_none by assumption. reflexivity.
  Qed.

  (** ** half of a sorted run *)
  Lemma every_other_rank (l : list F) v : StronglySorted (kle (fun x => x)) l ->
    n_le (every_other false l) v + n_le (every_other true l) v = n_le l v /\
    n_le (every_other true l) v <= n_le (every_other false l) v <= n_le (every_other true l) v + 1.
  Proof.
    induction 1 as [|x l HS IH Hx]; [cbn; lia|].
    cbn [every_other]. destruct IH as [IH1 IH2].
    unfold n_le in *. cbn [filter]. destruct (fle x v) eqn:E; cbn [length]; [lia|].
    (* x > v: nothing in l is at most v *)
    assert (filter (fun y => fle y v) l = []) as Hnil.
    { apply filter_none. eapply Forall_impl; [|exact Hx]. cbn. intros y Hy.
      destruct (fle y v) eqn:Ey; auto. unfold kle in Hy. rewrite (fle_trans _ _ _ Hy Ey) in E. discriminate. }
    rewrite Hnil in IH1. cbn [length] in IH1. rewrite Hnil. cbn [length]. lia.
  Qed.

  Lemma out_rank (hi out : list F) v : StronglySorted (kle (fun x => x)) hi -> output_of Default hi out ->
    n_le hi v <= 2 * n_le out v + 1 /\ 2 * n_le out v <= n_le hi v + 1.
  Proof.
    intros HS [ch ->]. destruct (every_other_rank v HS) as [H1 H2]. destruct ch; lia.
  Qed.

  Section Levels.
    Variables (k bs : nat).
    Hypothesis Hk : 1 <= k.
    Hypothesis Hbs : 2 <= bs.

    Ltac ens lv E := destruct lv as [|[?b ?c] ?up]; cbn [ensure] in E; injection E; intros; subst; clear E.

    (** *** a predicate on items preserved by compaction holds of everything held *)
    Lemma fill_all_in fast m (P : F -> Prop) :
      (forall hi out, output_of m hi out -> Forall P hi -> Forall P out) ->
      (forall lv (items : list F) lv', Fill k bs fast m lv items lv' -> all_in P lv -> Forall P items -> all_in P lv') /\
      (forall (b : list F) c up lv', Drain k bs fast m b c up lv' -> Forall P b -> all_in P up -> all_in P lv').
    Proof.
      intros HP. apply fill_drain_ind.
      - intros [|l lv] H _; cbn [ensure fst snd]; [|exact H]. repeat constructor.
      - intros lv b c up items lv1 lv2 E Hne Hl _ IHd _ IHf H Hit.
        assert (Forall P (firstn (bs - length b) items) /\ Forall P (skipn (bs - length b) items)) as [H1 H2].
        { rewrite <- Forall_app, firstn_skipn. exact Hit. }
        apply IHf; auto. apply IHd.
        + apply Forall_app. split; auto. ens lv E; [constructor|]. now apply Forall_inv in H.
        + ens lv E; [constructor|]. now apply Forall_inv_tail in H.
      - intros b c up Hl H1 H2. now constructor.
      - intros b c up i c' lo out up' lv Hl Hi (hi & Hp & Hs & Hlo & Ho) _ IHf _ IHd H1 H2.
        eapply Permutation_Forall in H1; [|exact Hp]. apply Forall_app in H1 as [Hl1 Hh1].
        apply IHd; auto. apply IHf; auto. eapply HP; eauto.
    Qed.

    (** *** even compactions: exact weight and halving *)
    Fixpoint halves (lv : list level) (n : nat) : Prop :=
      match lv with
      | [] => n = 0
      | (b, c) :: up => exists n', length b + 2 * n' = n /\ k * N.to_nat c <= 2 * n' /\ (up <> [] -> bs <= n) /\ halves up n'
      end.

    Lemma halves_weight lv n : halves lv n -> lv_weight lv = n.
    Proof.
      revert n. induction lv as [|[b c] up IH]; cbn [halves lv_weight]; intros n H; [auto|].
      destruct H as (n' & H1 & _ & _ & H2). rewrite (IH _ H2). exact H1.
    Qed.

    (** the number of items compacted is even *)
    Definition even_mode (fast : bool) : Prop :=
      Nat.even k = true /\ (fast = true -> Nat.even (bs - bs / 2) = true).

    Lemma fill_halves fast m : even_mode fast ->
      (forall lv (items : list F) lv', Fill k bs fast m lv items lv' -> small bs lv ->
         forall n, halves lv n -> halves lv' (n + length items) /\ lv' <> []) /\
      (forall (b : list F) c up lv', Drain k bs fast m b c up lv' -> length b <= bs -> small bs up ->
         forall n', halves up n' -> k * N.to_nat c <= 2 * n' -> (up <> [] -> bs <= length b + 2 * n') ->
         halves lv' (length b + 2 * n') /\ small bs lv').
    Proof.
      intros [Hev Hfev]. apply fill_drain_ind.
      - intros [|[b c] up] H n Hn; cbn [ensure fst snd length]; rewrite Nat.add_0_r; (split; [|discriminate]).
        + cbn in Hn. subst. exists 0. cbn. repeat split; auto; try lia. intros []; auto.
        + exact Hn.
      - intros lv b c up items lv1 lv2 E Hne Hl _ IHd _ IHf Hsm n Hn.
        assert (exists n', length b + 2 * n' = n /\ k * N.to_nat c <= 2 * n' /\ (up <> [] -> bs <= n) /\ halves up n' /\ small bs up)
          as (n' & H1 & H2 & H3 & H4 & H5).
        { ens lv E; [|destruct Hn as (n' & ? & ? & ? & ?); exists n'; repeat split; auto; now apply Forall_inv_tail in Hsm].
          cbn in Hn. subst. exists 0. cbn. repeat split; auto; try lia; try constructor. intros []; auto. }
        assert (length (firstn (bs - length b) items) + length (skipn (bs - length b) items) = length items) as Hsplit.
        { rewrite <- app_length, firstn_skipn. reflexivity. }
        assert (length (firstn (bs - length b) items) <= bs - length b) as Htake by (rewrite firstn_length; lia).
        rewrite app_length in IHd.
        destruct (IHd ltac:(lia) H5 n' H4 H2) as [A1 A2].
        { intros Hu. specialize (H3 Hu). lia. }
        destruct (IHf A2 _ A1) as [B1 B2]. split; auto.
        replace (n + length items) with (length b + length (firstn (bs - length b) items) + 2 * n' +
          length (skipn (bs - length b) items)) by lia. exact B1.
      - intros b c up Hl _ Hsm n' H1 H2 H3. split; [|now constructor]. exists n'. auto.
      - intros b c up i c' lo out up' lv Hl Hi (hi & Hp & Hs & Hlo & Ho) HF IHf _ IHd Hlb Hsm n' H1 H2 H3.
        pose proof (Permutation_length Hp) as Hlen. rewrite app_length in Hlen.
        assert (Nat.even (length hi) = true /\ k * N.to_nat c' <= k * N.to_nat c + length hi /\ i < bs) as (He & Hc' & Hib).
        { unfold index_ok in Hi. destruct fast.
          - destruct Hi as [-> ->]. replace (length hi) with (bs - bs / 2) by lia. repeat split; auto; [lia|].
            apply Nat.div_lt; lia.
          - destruct Hi as (Hi1 & Hi2 & ->).
            replace (length hi) with ((trailing_ones c + 1) * k) by lia.
            rewrite N2Nat.inj_add. change (N.to_nat 1) with 1. repeat split; [|nia|nia].
            rewrite Nat.even_mul, Hev. apply orb_true_r. }
        pose proof (output_length_even _ _ _ Ho He) as Hout.
        destruct (IHf Hsm _ H1) as [A1 A2].
        replace (length b + 2 * n') with (length lo + 2 * (n' + length out)) by lia.
        apply IHd; auto; try lia.
        eapply (proj1 (fill_drain_small Hk Hbs _ _)); eauto.
    Qed.

    (** each level was given at most half as many items as the one below *)
    Lemma halves_levels : forall h lv n, halves lv n -> length lv = S (S h) -> bs * 2 ^ h <= n.
    Proof.
      induction h as [|h IH]; intros [|[b c] up] n H Hl; try discriminate.
      - destruct H as (n' & H1 & H2 & H3 & H4). cbn [Nat.pow]. rewrite Nat.mul_1_r. apply H3.
        destruct up; discriminate.
      - destruct H as (n' & H1 & H2 & H3 & H4).
        assert (bs * 2 ^ h <= n') by (apply (IH up); auto; cbn in Hl; lia). cbn [Nat.pow]. nia.
    Qed.

    (** weighted number of compactions *)
    Lemma halves_compactions : forall lv n, halves lv n -> k * lv_compactions lv <= (length lv - 1) * n.
    Proof.
      induction lv as [|[b c] up IH]; intros n H; cbn [lv_compactions]; [rewrite Nat.mul_0_r; apply Nat.le_0_l|].
      destruct H as (n' & H1 & H2 & H3 & H4). specialize (IH _ H4).
      cbn [length]. replace (S (length up) - 1) with (length up) by lia.
      destruct up as [|l up].
      { cbn in H4. subst n'. cbn [lv_compactions length] in *. lia. }
      cbn [length] in IH. replace (S (length up) - 1) with (length up) in IH by lia. cbn [length].
      assert (S (length up) * (2 * n') <= S (length up) * n) by (apply Nat.mul_le_mono_l; lia). lia.
    Qed.
    Fixpoint lv_compactions2 (lv : list level) : nat :=
      match lv with [] => 0 | (_, c) :: up => N.to_nat c + 4 * lv_compactions2 up end.
    Lemma halves_compactions2 : forall lv n, halves lv n -> k * lv_compactions2 lv <= (2 ^ (length lv - 1) - 1) * n.
    Proof.
      induction lv as [|[b c] up IH]; intros n H; cbn [lv_compactions2]; [rewrite Nat.mul_0_r; apply Nat.le_0_l|].
      destruct H as (n' & H1 & H2 & H3 & H4). specialize (IH _ H4).
      cbn [length]. replace (S (length up) - 1) with (length up) by lia.
      destruct up as [|l up].
      { cbn in H4. subst n'. cbn [lv_compactions2 length] in *. cbn [Nat.pow]. lia. }
      cbn [length] in IH. replace (S (length up) - 1) with (length up) in IH by lia.
      cbn [length]. rewrite Nat.pow_succ_r'.
      assert (1 <= 2 ^ length up) as Hp by (apply Nat.neq_0_lt_0, Nat.pow_nonzero; lia).
      revert IH Hp. generalize (2 ^ length up). intros [|p] IH Hp; [lia|].
      replace (S p - 1) with p in IH by lia. replace (2 * S p - 1) with (2 * p + 1) by lia.
      assert (2 * n' <= n) by lia. assert (p * (2 * n') <= p * n) by (apply Nat.mul_le_mono_l; lia). lia.
    Qed.

    (** *** default mode, any k *)
    Fixpoint tight (lv : list level) (n : nat) : Prop :=
      match lv with
      | [] => n = 0
      | (b, c) :: up => exists r n', length b + r = n /\ (14 * Z.of_nat n' <= 10 * Z.of_nat r + slack c)%Z /\
                                     (up <> [] -> bs <= n) /\ tight up n'
      end.

    Lemma fill_tight m :
      (forall lv (items : list F) lv', Fill k bs false m lv items lv' -> small bs lv ->
         forall n, tight lv n -> tight lv' (n + length items) /\ lv' <> []) /\
      (forall (b : list F) c up lv', Drain k bs false m b c up lv' -> length b <= bs -> small bs up ->
         forall r n', tight up n' -> (14 * Z.of_nat n' <= 10 * Z.of_nat r + slack c)%Z ->
         (up <> [] -> bs <= length b + r) ->
         tight lv' (length b + r) /\ small bs lv').
    Proof.
      apply fill_drain_ind.
      - intros [|[b c] up] H n Hn; cbn [ensure fst snd length]; rewrite Nat.add_0_r; (split; [|discriminate]).
        + cbn in Hn. subst. exists 0, 0. cbn. repeat split; auto; try lia. intros []; auto.
        + exact Hn.
      - intros lv b c up items lv1 lv2 E Hne Hl _ IHd _ IHf Hsm n Hn.
        assert (exists r n', length b + r = n /\ (14 * Z.of_nat n' <= 10 * Z.of_nat r + slack c)%Z /\
                  (up <> [] -> bs <= n) /\ tight up n' /\ small bs up)
          as (r & n' & H1 & H2 & H3 & H4 & H5).
        { ens lv E; [|destruct Hn as (r & n' & ? & ? & ? & ?); exists r, n'; repeat split; auto; now apply Forall_inv_tail in Hsm].
          cbn in Hn. subst. exists 0, 0. cbn. repeat split; auto; try lia; try constructor. intros []; auto. }
        assert (length (firstn (bs - length b) items) + length (skipn (bs - length b) items) = length items) as Hsplit.
        { rewrite <- app_length, firstn_skipn. reflexivity. }
        assert (length (firstn (bs - length b) items) <= bs - length b) as Htake by (rewrite firstn_length; lia).
        rewrite app_length in IHd.
        destruct (IHd ltac:(lia) H5 r n' H4 H2) as [A1 A2].
        { intros Hu. specialize (H3 Hu). lia. }
        destruct (IHf A2 _ A1) as [B1 B2]. split; auto.
        replace (n + length items) with (length b + length (firstn (bs - length b) items) + r +
          length (skipn (bs - length b) items)) by lia. exact B1.
      - intros b c up Hl _ Hsm r n' H1 H2 H3. split; [|now constructor]. exists r, n'. auto.
      - intros b c up i c' lo out up' lv Hl Hi (hi & Hp & Hs & Hlo & Ho) HF IHf _ IHd Hlb Hsm r n' H1 H2 H3.
        pose proof (Permutation_length Hp) as Hlen. rewrite app_length in Hlen.
        destruct Hi as (Hi1 & Hi2 & ->).
        assert (length hi = (trailing_ones c + 1) * k) as Hhi by lia.
        pose proof (output_length_le _ _ _ Ho) as Hout.
        destruct (IHf Hsm _ H1) as [A1 A2].
        replace (length b + r) with (length lo + (r + length hi)) by lia.
        apply IHd with (n' := n' + length out); auto; try lia.
        + eapply (proj1 (fill_drain_small Hk Hbs _ _)); eauto.
        + destruct (slack_step c) as [[E1 E2]|[[E1 E2]|[E1 E2]]].
          * rewrite E2 in Hhi. lia.
          * rewrite E2 in Hhi. assert (length out <= k) by lia. lia.
          * assert (3 * 1 <= (trailing_ones c + 1) * k) by (apply Nat.mul_le_mono; lia). lia.
    Qed.

    (** each level was given about 5/7 as many items as the one below, at most *)
    Lemma tight_levels : forall h lv n, tight lv n -> length lv = S (S h) -> (bs - 1) * 7 ^ h <= 5 ^ h * (n - 1).
    Proof.
      induction h as [|h IH]; intros [|[b c] up] n H Hl; try discriminate.
      - destruct H as (r & n' & H1 & H2 & H3 & H4). cbn [Nat.pow]. rewrite Nat.mul_1_r, Nat.mul_1_l.
        assert (bs <= n) by (apply H3; destruct up; discriminate). lia.
      - destruct H as (r & n' & H1 & H2 & H3 & H4).
        assert ((bs - 1) * 7 ^ h <= 5 ^ h * (n' - 1)) as H5 by (apply (IH up); auto; cbn in Hl; lia).
        assert (bs <= n) as Hn by (apply H3; destruct up; discriminate).
        assert (7 * (n' - 1) <= 5 * (n - 1)) as H8.
        { assert (slack c <= 4)%Z by (unfold slack; destruct (c mod 4)%N as [|[[]|[]|]]; lia). lia. }
        rewrite !Nat.pow_succ_r'. generalize dependent (7 ^ h). generalize dependent (5 ^ h). intros p5 p7 H5.
        assert (p5 * (7 * (n' - 1)) <= p5 * (5 * (n - 1))) by (apply Nat.mul_le_mono_l; exact H8). lia.
    Qed.

    (** *** rank error: each compaction of level i changes any rank by at most 2^i *)
    Lemma fill_rank v :
      (forall lv (items : list F) lv', Fill k bs false Default lv items lv' ->
         (Z.abs (Z.of_nat (lv_rank lv' v) - Z.of_nat (lv_rank lv v + n_le items v))
          <= Z.of_nat (lv_compactions lv') - Z.of_nat (lv_compactions lv))%Z) /\
      (forall (b : list F) c up lv', Drain k bs false Default b c up lv' ->
         (Z.abs (Z.of_nat (lv_rank lv' v) - Z.of_nat (n_le b v + 2 * lv_rank up v))
          <= Z.of_nat (lv_compactions lv') - Z.of_nat (N.to_nat c + 2 * lv_compactions up))%Z).
    Proof.
      apply fill_drain_ind.
      - intros [|[b c] up]; cbn [ensure fst snd lv_rank lv_compactions]; cbn; lia.
      - intros lv b c up items lv1 lv2 E Hne Hl _ IHd _ IHf.
        assert (n_le items v = n_le (firstn (bs - length b) items) v + n_le (skipn (bs - length b) items) v) as Hsp.
        { rewrite <- n_le_app, firstn_skipn. reflexivity. }
        rewrite n_le_app in IHd.
        ens lv E; cbn [lv_rank lv_compactions n_le filter length] in *; lia.
      - intros b c up Hl. cbn [lv_rank lv_compactions]. lia.
      - intros b c up i c' lo out up' lv Hl Hi (hi & Hp & Hs & Hlo & Ho) HF IHf _ IHd.
        apply SS_app in Hs as (_ & Hs & _).
        pose proof (out_rank v Hs Ho) as [O1 O2].
        rewrite (n_le_perm v Hp), n_le_app. destruct Hi as (_ & _ & ->).
        rewrite N2Nat.inj_add in IHd. change (N.to_nat 1) with 1 in IHd. lia.
    Qed.
  End Levels.
End RCR.
