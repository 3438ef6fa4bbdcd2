(** RCSketch: the smallest items are kept exactly; expectation and variance of ranks over the coin flips. *)
From Coq Require Import List Arith ZArith NArith Lia Bool Permutation Sorted Reals Lra.
From Verif Require Import Base Floats Digest Spec FloatFacts History TDigest RCSketch RCProofs RCHist RCRank.
Set Implicit Arguments.
Local Open Scope nat_scope.

Lemma expect_bind_le {A B} (P : A -> Prop) (f : B -> R) (h : A -> R) (m : M A) (g : A -> M B) :
  always (fun _ => True) (bind m g) -> whenever P m ->
  (forall a, P a -> always (fun _ => True) (g a) -> (expect f (g a) <= h a)%R) -> (expect f (bind m g) <= expect h m)%R.
Proof.
  intros H HP Hf. rewrite expect_bind. rewrite always_bind_iff in H.
  eapply expect_le_always; [apply (@always_whenever_and _ _ _ _ H HP)|]. cbn beta. intros a [H1 H2]. auto.
Qed.
Lemma expect_bind_eq {A B} (P : A -> Prop) (f : B -> R) (h : A -> R) (m : M A) (g : A -> M B) :
  always (fun _ => True) (bind m g) -> whenever P m ->
  (forall a, P a -> always (fun _ => True) (g a) -> expect f (g a) = h a) -> expect f (bind m g) = expect h m.
Proof.
  intros H HP Hf. rewrite expect_bind. rewrite always_bind_iff in H.
  eapply expect_ext_always; [apply (@always_whenever_and _ _ _ _ H HP)|]. cbn beta. intros a [H1 H2]. auto.
Qed.
Lemma always_bind_true {A B} (m : M A) (g : A -> M B) :
  always (fun _ => True) (bind m g) -> always (fun _ => True) m.
Proof. rewrite always_bind_iff. intros H. eapply always_mono; [exact H|auto]. Qed.

Section RCE.
  Context {F : Type} {FO : FloatOps F} {FL : FloatLaws F}.
  Notation level := (@level F).

  (** ** the smallest items *)
  Section Guard.
    Variables (k bs q : nat).
    Hypothesis Hk : 1 <= k.
    Hypothesis Hbs : 2 <= bs.

    (** [guard lv its]: of the items [its], the bottom buffer misses only items above at least [q] it still has *)
    Definition guard (lv : list level) (its : list F) : Prop :=
      match lv with
      | [] => its = []
      | (b, c) :: up => exists gone, Permutation its (b ++ gone) /\ k * N.to_nat c <= length gone /\
                          (forall x, In x gone -> q <= n_le b x) /\ all_in (fun y => In y gone) up
      end.

    (** no compaction of the bottom buffer cuts below [q] while it has been given at most [nmax] items *)
    Definition cut_ok (nmax : nat) : Prop :=
      forall c, k * N.to_nat c + bs <= nmax -> (trailing_ones c + 1) * k + q <= bs.

    Lemma all_le_rank (lo : list F) x : (forall y, In y lo -> fle y x = true) -> n_le lo x = length lo.
    Proof. intros H. unfold n_le. rewrite filter_all; auto. now apply Forall_forall. Qed.

    Lemma fill_guard fast nmax : (fast = false -> cut_ok nmax) -> (fast = true -> q <= bs / 2) ->
      (forall lv (items : list F) lv', Fill k bs fast Default lv items lv' ->
         forall its, guard lv its -> length its + length items <= nmax -> guard lv' (its ++ items)) /\
      (forall (b : list F) c up lv', Drain k bs fast Default b c up lv' -> length b <= bs ->
         forall its gone, Permutation its (b ++ gone) -> k * N.to_nat c <= length gone ->
           (forall x, In x gone -> q <= n_le b x) -> all_in (fun y => In y gone) up -> length its <= nmax ->
           guard lv' its).
    Proof.
      intros Hd Hf. apply fill_drain_ind.
      - intros [|[b c] up] its H _; rewrite app_nil_r; cbn [ensure fst snd].
        + cbn in H. subst. exists []. cbn. repeat split; auto; [lia|intros x []|constructor].
        + exact H.
      - intros lv b c up items lv1 lv2 E Hne Hl _ IHd _ IHf its HG Hn.
        assert (exists gone, Permutation its (b ++ gone) /\ k * N.to_nat c <= length gone /\
                  (forall x, In x gone -> q <= n_le b x) /\ all_in (fun y => In y gone) up) as (gone & G1 & G2 & G3 & G4).
        { destruct lv as [|[b0 c0] up0]; cbn [ensure] in E; injection E; intros; subst.
          - cbn in HG. subst. exists []. cbn. repeat split; auto; [lia|intros x []|constructor].
          - exact HG. }
        set (t := firstn (bs - length b) items) in *. set (r := skipn (bs - length b) items) in *.
        assert (items = t ++ r) as Eit by (symmetry; apply firstn_skipn).
        assert (length items = length t + length r) as Elen by (rewrite Eit, app_length; reflexivity).
        assert (length t <= bs - length b) as Htake by (unfold t; rewrite firstn_length; lia).
        rewrite Eit, app_assoc. apply IHf; [|rewrite app_length; lia].
        apply IHd with (gone := gone); auto.
        + rewrite app_length. lia.
        + rewrite G1, <- !app_assoc. apply Permutation_app_head, Permutation_app_comm.
        + intros x Hx. rewrite n_le_app. specialize (G3 x Hx). lia.
        + rewrite app_length. lia.
      - intros b c up Hl _ its gone H1 H2 H3 H4 H5. exists gone. auto.
      - intros b c up i c' lo out up' lv Hl Hi (hi & Hp & Hs & Hlo & Ho) HF _ _ IHd Hlb its gone H1 H2 H3 H4 H5.
        pose proof (Permutation_length Hp) as Hlen. rewrite app_length in Hlen.
        pose proof (Permutation_length H1) as Hlen1. rewrite app_length in Hlen1.
        assert (q <= i /\ k * N.to_nat c' <= length hi + length gone) as [Hq Hc'].
        { unfold index_ok in Hi. destruct fast.
          - destruct Hi as [-> ->]. split; [auto|lia].
          - destruct Hi as (Hi1 & Hi2 & ->). pose proof (Hd eq_refl c ltac:(lia)) as Hcut.
            rewrite N2Nat.inj_add. change (N.to_nat 1) with 1. split; [lia|nia]. }
        apply SS_app in Hs as (_ & _ & Hlh).
        apply IHd with (gone := hi ++ gone).
        + lia.
        + rewrite H1, Hp, <- app_assoc. reflexivity.
        + rewrite app_length. exact Hc'.
        + intros x Hx. apply in_app_iff in Hx as [Hx|Hx].
          * rewrite all_le_rank; [lia|]. intros y Hy. apply Hlh; auto.
          * specialize (H3 x Hx). rewrite (n_le_perm x Hp), n_le_app in H3.
            destruct (filter (fun y => fle y x) hi) as [|h hs] eqn:Eh.
            { unfold n_le at 2 in H3. rewrite Eh in H3. cbn in H3. lia. }
            assert (In h hi /\ fle h x = true) as [Hh1 Hh2].
            { apply (filter_In (fun y => fle y x)). rewrite Eh. now left. }
            rewrite all_le_rank; [lia|]. intros y Hy. eapply fle_trans; [apply (Hlh y h); auto|exact Hh2].
        + eapply (proj1 (@fill_all_in F FO k bs fast Default (fun y => In y (hi ++ gone)) ltac:(
            intros h o [ch ->] HFa; apply Forall_forall; intros y Hy; apply every_other_In in Hy;
            rewrite Forall_forall in HFa; auto))); [exact HF| |].
          * eapply Forall_impl; [|exact H4]. intros l Hlv. eapply Forall_impl; [|exact Hlv].
            intros y Hy. apply in_app_iff. now right.
          * destruct Ho as [ch ->]. apply Forall_forall. intros y Hy. apply every_other_In in Hy.
            apply in_app_iff. now left.
        + exact H5.
    Qed.

    Lemma guard_exact lv its v : guard lv its -> n_le its v <= q -> lv_rank lv v = n_le its v.
    Proof.
      clear Hk Hbs. destruct lv as [|[b c] up]; cbn [guard lv_rank]; [intros -> _; reflexivity|].
      intros (gone & G1 & G2 & G3 & G4) Hq. rewrite (n_le_perm v G1), n_le_app in *.
      assert (forall x, In x gone -> fle x v = false) as Hnone.
      { intros x Hx. destruct (fle x v) eqn:E; auto. exfalso. specialize (G3 x Hx).
        pose proof (n_le_mono b _ _ E) as Hm.
        assert (1 <= n_le gone v); [|lia].
        unfold n_le. destruct (filter (fun y => fle y v) gone) eqn:Ef; [|cbn; lia].
        assert (In x (filter (fun y => fle y v) gone)) as Hin by (apply filter_In; auto).
        rewrite Ef in Hin. destruct Hin. }
      rewrite lv_rank_none.
      - unfold n_le at 3. rewrite filter_none; [cbn; lia|]. now apply Forall_forall.
      - eapply Forall_impl; [|exact G4]. intros l Hl. eapply Forall_impl; [|exact Hl]. auto.
    Qed.
  End Guard.

  (** ** expectation *)
  Lemma compact_coin (b : list F) i (g : list F * list F -> R) :
    always (fun _ => True) (rc_compact b i Default) ->
    exists s, Permutation b s /\ StronglySorted (kle (fun x => x)) s /\ i <= length s /\
      rc_compact b i Default = Flip (fun ch => Ret (firstn i s, every_other ch (skipn i s))).
  Proof.
    unfold rc_compact.
    assert (whenever (fun s => Permutation b s /\ StronglySorted (kle (fun x => x)) s) (sort_by_key (fun x => x) b)) as Hs.
    { destruct b as [|x [|y b']]; cbn [sort_by_key whenever].
      - split; constructor.
      - split; repeat constructor.
      - destruct (existsb _ _) eqn:E; cbn [whenever]; auto. split; [apply isort_perm|].
        apply isort_sorted. apply Forall_forall. intros a Ha.
        destruct (fisnan a) eqn:En; auto. exfalso.
        assert (existsb (fun a : F => fisnan a) (x :: y :: b') = true) as E'; [|congruence].
        apply existsb_exists. eauto. }
    assert (exists s, sort_by_key (fun x => x) b = Ret s \/ sort_by_key (fun x => x) b = Panic) as [s [E|E]].
    { destruct b as [|x [|y b']]; cbn [sort_by_key]; eauto. destruct (existsb _ _); eauto. }
    - rewrite E in *. cbn [bind whenever] in *. destruct Hs as [H1 H2].
      destruct (Nat.ltb_spec (length s) i) as [H|H]; [intros []|]. intros _. exists s. auto.
    - rewrite E. intros [].
      Unshelve. exact [].
  Qed.

  Lemma compact_index_ret k bs fast (b : list F) c : always (fun _ => True) (compact_index k bs fast b c) ->
    exists i c', compact_index k bs fast b c = Ret (i, c') /\ index_ok k bs fast b c i c'.
  Proof.
    intros H. pose proof (compact_index_whenever k bs fast b c) as Hw. revert H Hw.
    unfold compact_index, get_compact_index, bump.
    destruct fast; [intros _ Hw; cbn in Hw; eauto|].
    destruct (_ <? _); [intros []|]. destruct (_ =? _)%N; [intros []|]. cbn [bind whenever fst snd]. eauto.
  Qed.

  Section Expect.
    Variables (k bs : nat) (v : F).
    Hypothesis Hk : 1 <= k.
    Hypothesis Hbs : 2 <= bs.

    Lemma n_le_halves (s : list F) : StronglySorted (kle (fun x => x)) s ->
      (INR (n_le (every_other false s) v) + INR (n_le (every_other true s) v) = INR (n_le s v))%R.
    Proof. intros HS. destruct (every_other_rank v HS) as [H1 _]. rewrite <- plus_INR. now f_equal. Qed.

    Lemma fill_expect fast fuel :
      (forall lv items, always (fun _ => True) (fill k bs fast Default fuel lv items) ->
         expect (fun lv' => INR (lv_rank lv' v)) (fill k bs fast Default fuel lv items)
         = (INR (lv_rank lv v) + INR (n_le items v))%R) /\
      (forall b c up, always (fun _ => True) (drain k bs fast Default fuel b c up) ->
         expect (fun lv' => INR (lv_rank lv' v)) (drain k bs fast Default fuel b c up)
         = (INR (n_le b v) + 2 * INR (lv_rank up v))%R).
    Proof.
      induction fuel as [|fuel [IHf IHd]]; [split; intros; contradiction|]. split.
      - intros lv items. rewrite fill_S. destruct (ensure lv) as [[b c] up] eqn:E.
        assert (INR (lv_rank lv v) = INR (n_le b v) + 2 * INR (lv_rank up v))%R as Elv.
        { destruct lv as [|[b0 c0] up0]; cbn [ensure] in E; injection E; intros; subst.
          - cbn. lra.
          - cbn [lv_rank]. rewrite plus_INR, mult_INR. reflexivity. }
        destruct items as [|x items].
        { intros _. cbn [expect]. rewrite Elv. cbn [lv_rank]. rewrite plus_INR, mult_INR. cbn. lra. }
        destruct (bs <? length b); [intros []|]. intros HA.
        erewrite expect_bind_eq with (P := fun _ => True)
          (h := fun lv' => (INR (lv_rank lv' v) + INR (n_le (skipn (bs - length b) (x :: items)) v))%R).
        2: exact HA.
        2: apply whenever_true.
        2: { intros lv' _ H. apply IHf; exact H. }
        rewrite expect_plus, expect_const by (eapply always_bind_true; exact HA).
        rewrite IHd by (eapply always_bind_true; exact HA).
        rewrite n_le_app, plus_INR, Elv.
        rewrite <- (firstn_skipn (bs - length b) (x :: items)) at 3. rewrite n_le_app, plus_INR. lra.
      - intros b c up. rewrite drain_S. destruct (length b <? bs).
        { intros _. cbn [expect lv_rank]. rewrite plus_INR, mult_INR. reflexivity. }
        intros HA. pose proof (always_bind_true _ _ HA) as Hix.
        apply compact_index_ret in Hix as (i & c' & Ei & _). rewrite Ei in *. cbn [bind] in *.
        pose proof (always_bind_true _ _ HA) as Hco.
        apply compact_coin in Hco as (s & Hp & Hs & His & Es). 2: exact (fun _ => 0%R).
        rewrite Es in *. cbn [bind expect always] in *.
        assert (forall ch, expect (fun lv' => INR (lv_rank lv' v))
                  (do up' <- fill k bs fast Default fuel up (every_other ch (skipn i s));
                   drain k bs fast Default fuel (firstn i s) c' up')
                = (INR (n_le (firstn i s) v) + 2 * (INR (lv_rank up v) + INR (n_le (every_other ch (skipn i s)) v)))%R) as Hch.
        { intros ch. specialize (HA ch).
          erewrite expect_bind_eq with (P := fun _ => True)
            (h := fun up' => (INR (n_le (firstn i s) v) + 2 * INR (lv_rank up' v))%R).
          2: exact HA.
          2: apply whenever_true.
          2: { intros up' _ H. apply IHd; exact H. }
          rewrite expect_plus, expect_const, expect_scal by (eapply always_bind_true; exact HA).
          rewrite IHf by (eapply always_bind_true; exact HA). reflexivity. }
        assert (n_le s v = n_le (firstn i s) v + n_le (skipn i s) v) as Esp by (rewrite <- n_le_app, firstn_skipn; reflexivity).
        rewrite !Hch. rewrite (n_le_perm v Hp).
        rewrite <- (firstn_skipn i s) in Hs. apply SS_app in Hs as (_ & Hs & _).
        pose proof (n_le_halves Hs) as Hh.
        rewrite Esp, plus_INR. lra.
    Qed.

    (** mean square: every compaction of level i adds at most 4^i *)
    Lemma fill_square fuel :
      (forall lv items a, always (fun _ => True) (fill k bs false Default fuel lv items) ->
         (expect (fun lv' => (INR (lv_rank lv' v) + a) ^ 2 - INR (lv_compactions2 lv')) (fill k bs false Default fuel lv items)
         <= (INR (lv_rank lv v) + INR (n_le items v) + a) ^ 2 - INR (lv_compactions2 lv))%R) /\
      (forall b c up a, always (fun _ => True) (drain k bs false Default fuel b c up) ->
         (expect (fun lv' => (INR (lv_rank lv' v) + a) ^ 2 - INR (lv_compactions2 lv')) (drain k bs false Default fuel b c up)
         <= (INR (n_le b v) + 2 * INR (lv_rank up v) + a) ^ 2 - (INR (N.to_nat c) + 4 * INR (lv_compactions2 up)))%R).
    Proof.
      induction fuel as [|fuel [IHf IHd]]; [split; intros; contradiction|]. split.
      - intros lv items a. rewrite fill_S. destruct (ensure lv) as [[b c] up] eqn:E.
        assert (INR (lv_rank lv v) = INR (n_le b v) + 2 * INR (lv_rank up v) /\
                INR (lv_compactions2 lv) = INR (N.to_nat c) + 4 * INR (lv_compactions2 up))%R as [Elv Ecv].
        { destruct lv as [|[b0 c0] up0]; cbn [ensure] in E; injection E; intros; subst.
          - cbn. lra.
          - cbn [lv_rank lv_compactions2]. rewrite !plus_INR, !mult_INR. split; [reflexivity|]. cbn [INR]. lra. }
        destruct items as [|x items].
        { intros _. cbn [expect]. rewrite Elv, Ecv. cbn [lv_rank lv_compactions2]. rewrite !plus_INR, !mult_INR.
          replace (INR (n_le [] v)) with 0%R by reflexivity. cbn [INR]. apply Req_le. ring. }
        destruct (bs <? length b); [intros []|]. intros HA.
        eapply Rle_trans.
        { eapply expect_bind_le with (P := fun _ => True)
            (h := fun lv' => ((INR (lv_rank lv' v) + (INR (n_le (skipn (bs - length b) (x :: items)) v) + a)) ^ 2
                              - INR (lv_compactions2 lv'))%R); [exact HA|apply whenever_true|].
          intros lv' _ H. eapply Rle_trans; [apply IHf; exact H|]. apply Req_le. ring. }
        eapply Rle_trans; [apply IHd; eapply always_bind_true; exact HA|].
        rewrite Elv, Ecv, n_le_app, plus_INR.
        rewrite <- (firstn_skipn (bs - length b) (x :: items)) at 3. rewrite n_le_app, plus_INR. apply Req_le. ring.
      - intros b c up a. rewrite drain_S. destruct (length b <? bs).
        { intros _. cbn [expect lv_rank lv_compactions2]. rewrite !plus_INR, !mult_INR. cbn [INR]. apply Req_le. ring. }
        intros HA. pose proof (always_bind_true _ _ HA) as Hix.
        apply compact_index_ret in Hix as (i & c' & Ei & Hi). rewrite Ei in *. cbn [bind] in *.
        destruct Hi as (_ & _ & ->).
        pose proof (always_bind_true _ _ HA) as Hco.
        apply compact_coin in Hco as (s & Hp & Hs & His & Es). 2: exact (fun _ => 0%R).
        rewrite Es in *. cbn [bind expect always] in *.
        assert (forall ch, (expect (fun lv' => (INR (lv_rank lv' v) + a) ^ 2 - INR (lv_compactions2 lv'))
                  (do up' <- fill k bs false Default fuel up (every_other ch (skipn i s));
                   drain k bs false Default fuel (firstn i s) (c + 1)%N up')
                <= (INR (n_le (firstn i s) v) + 2 * (INR (lv_rank up v) + INR (n_le (every_other ch (skipn i s)) v)) + a) ^ 2
                   - (INR (N.to_nat c) + 1 + 4 * INR (lv_compactions2 up)))%R) as Hch.
        { intros ch. specialize (HA ch).
          set (a' := ((INR (n_le (firstn i s) v) + a) / 2)%R).
          eapply Rle_trans.
          { eapply expect_bind_le with (P := fun _ => True)
              (h := fun up' => (4 * ((INR (lv_rank up' v) + a') ^ 2 - INR (lv_compactions2 up'))
                                + (- (INR (N.to_nat c) + 1)))%R); [exact HA|apply whenever_true|].
            intros up' _ H. eapply Rle_trans; [apply IHd; exact H|].
            rewrite N2Nat.inj_add, plus_INR. change (INR (N.to_nat 1)) with 1%R. unfold a'. apply Req_le. field. }
          rewrite expect_plus, expect_const, expect_scal by (eapply always_bind_true; exact HA).
          pose proof (IHf up (every_other ch (skipn i s)) a' ltac:(eapply always_bind_true; exact HA)) as H.
          eapply Rle_trans; [apply Rplus_le_compat_r, Rmult_le_compat_l; [lra|exact H]|].
          unfold a'. apply Req_le. field. }
        pose proof (Hch false) as H0. pose proof (Hch true) as H1.
        rewrite (n_le_perm v Hp).
        rewrite <- (firstn_skipn i s) in Hs. apply SS_app in Hs as (_ & Hs & _).
        destruct (every_other_rank v Hs) as [Q1 Q2].
        assert (n_le s v = n_le (firstn i s) v + n_le (skipn i s) v) as Esp by (rewrite <- n_le_app, firstn_skipn; reflexivity).
        rewrite Esp, <- Q1, !plus_INR.
        set (x0 := n_le (every_other false (skipn i s)) v) in *. set (x1 := n_le (every_other true (skipn i s)) v) in *.
        assert (INR x0 = INR x1 \/ INR x0 = INR x1 + 1)%R as [Ex|Ex].
        { assert (x0 = x1 \/ x0 = S x1) as [-> | ->] by lia; [left; reflexivity|right; apply S_INR]. }
        + rewrite Ex in *.
          match goal with |- (_ <= ?r)%R => replace r with
            (((INR (n_le (firstn i s) v) + 2 * (INR (lv_rank up v) + INR x1) + a) ^ 2
              - (INR (N.to_nat c) + 4 * INR (lv_compactions2 up))))%R by ring end.
          lra.
        + rewrite Ex in *.
          match goal with |- (_ <= ?r)%R => replace r with
            ((((INR (n_le (firstn i s) v) + 2 * (INR (lv_rank up v) + (INR x1 + 1)) + a) ^ 2
               + (INR (n_le (firstn i s) v) + 2 * (INR (lv_rank up v) + INR x1) + a) ^ 2) / 2 - 1
              - (INR (N.to_nat c) + 4 * INR (lv_compactions2 up))))%R by field end.
          lra.
    Qed.

    (** *** whole sequences of calls *)
    Lemma rexec_martingale (Phi : list level -> R -> R) (mode : bool -> method -> Prop) :
      (* what one filling does, for any offset of the argument *)
      (forall fast m fuel lv items a, mode fast m -> always (fun _ => True) (fill k bs fast m fuel lv items) ->
         (expect (fun lv' => Phi lv' a) (fill k bs fast m fuel lv items) <= Phi lv (INR (n_le items v) + a))%R) ->
      forall ops (s : rc F) a, Forall (fun o => mode (rfast o) (rmeth o)) ops ->
        rc_k s = k -> rc_size s = bs -> small bs (rc_levels s) -> always (fun _ => True) (rexec s ops) ->
        (expect (fun s' => Phi (rc_levels s') a) (rexec s ops)
         <= Phi (rc_levels s) (INR (n_le (ritems_of ops) v) + a))%R.
    Proof.
      intros HPhi. unfold rexec.
      assert (forall fast m cs lv a, mode fast m ->
                always (fun _ => True) (foldM (fun lv chunk => fill k bs fast m (rc_fuel bs lv (length chunk)) lv chunk) lv cs) ->
                (expect (fun lv' => Phi lv' a)
                   (foldM (fun lv chunk => fill k bs fast m (rc_fuel bs lv (length chunk)) lv chunk) lv cs)
                 <= Phi lv (INR (n_le (concat cs) v) + a))%R) as HC.
      { intros fast m cs. induction cs as [|ch cs IH]; intros lv a Hm HA; cbn [foldM concat] in *.
        - cbn [expect]. replace (INR (n_le [] v)) with 0%R by reflexivity. rewrite Rplus_0_l. lra.
        - eapply Rle_trans.
          { eapply expect_bind_le with (P := fun _ => True); [exact HA|apply whenever_true|].
            intros lv1 _ H. apply IH; [exact Hm|exact H]. }
          cbn beta. eapply Rle_trans; [apply HPhi; [exact Hm|eapply always_bind_true; exact HA]|].
          rewrite n_le_app, plus_INR. apply Req_le. f_equal. ring. }
      assert (forall (s : rc F) o a, mode (rfast o) (rmeth o) -> rc_k s = k -> rc_size s = bs -> small bs (rc_levels s) ->
                always (fun _ => True) (rstep s o) ->
                (expect (fun s' => Phi (rc_levels s') a) (rstep s o) <= Phi (rc_levels s) (INR (n_le (ritems o) v) + a))%R) as HS.
      { intros s o a Hm Ek Eb Hsm HA.
        assert (forall l fast m cnt, mode fast m ->
                  always (fun _ => True) (do lv <- rc_chunks s l fast m; Ret (rc_with s lv cnt)) ->
                  (expect (fun s' => Phi (rc_levels s') a) (do lv <- rc_chunks s l fast m; Ret (rc_with s lv cnt))
                   <= Phi (rc_levels s) (INR (n_le l v) + a))%R) as HB.
        { intros l fast m cnt Hm' HA'. rewrite expect_bind. cbn [expect rc_with rc_levels].
          apply always_bind_true in HA'. revert HA'. unfold rc_chunks. rewrite Ek, Eb.
          assert (1 <= bs / 2) as Hc by (apply Nat.div_le_lower_bound; lia).
          destruct (bs / 2) as [|c] eqn:Ec; [lia|]. cbn [chunks bind].
          pose proof (chunks_list_concat l Hc) as El. revert El.
          generalize (chunks_list (S c) l). intros cs <- HA'. apply HC; auto. }
        destruct o as [x|l|l fast m]; cbn [rstep ritems rfast rmeth] in *.
        - unfold rc_add in *. rewrite Ek, Eb in *. rewrite expect_bind. cbn [expect rc_with rc_levels].
          apply always_bind_true in HA. revert HA.
          destruct (rc_fuel_S bs (rc_levels s) 1) as (f & -> & _).
          rewrite insert_one_fill by auto. intros HA. apply HPhi; auto.
        - apply HB; auto.
        - apply HB; auto. }
      induction ops as [|o ops IH]; intros s a Hm Ek Eb Hsm HA; cbn [foldM] in *.
      - cbn [expect ritems_of map concat]. replace (INR (n_le [] v)) with 0%R by reflexivity. rewrite Rplus_0_l. lra.
      - pose proof (Forall_inv Hm) as Hm1. apply Forall_inv_tail in Hm.
        eapply Rle_trans.
        { eapply expect_bind_le; [exact HA|apply (@rstep_whenever F FO FL k bs Hk Hbs s o); auto|].
          intros s1 (A1 & A2 & A3 & _) H. apply IH; auto. }
        cbn beta. eapply Rle_trans; [apply HS; auto; eapply always_bind_true; exact HA|].
        unfold ritems_of. cbn [map concat]. rewrite n_le_app, plus_INR. apply Req_le. f_equal. ring.
    Qed.

    Lemma rexec_expect ops (s : rc F) : Forall (fun o => rmeth o = Default) ops ->
      rc_k s = k -> rc_size s = bs -> small bs (rc_levels s) -> always (fun _ => True) (rexec s ops) ->
      expect (fun s' => INR (lv_rank (rc_levels s') v)) (rexec s ops)
      = (INR (lv_rank (rc_levels s) v) + INR (n_le (ritems_of ops) v))%R.
    Proof.
      intros Hm Ek Eb Hsm HA. apply Rle_antisym.
      - pose proof (@rexec_martingale (fun lv a => INR (lv_rank lv v) + a)%R (fun _ m => m = Default)) as H.
        specialize (H ltac:(intros fast m fuel lv items a -> HF;
          rewrite expect_plus, expect_const, (proj1 (fill_expect fast fuel)) by assumption; lra)).
        specialize (H ops s 0%R Hm Ek Eb Hsm HA). cbn beta in H. rewrite expect_plus, expect_const in H by assumption. lra.
      - pose proof (@rexec_martingale (fun lv a => (-1) * INR (lv_rank lv v) + (-1) * a)%R (fun _ m => m = Default)) as H.
        specialize (H ltac:(intros fast m fuel lv items a -> HF;
          rewrite expect_plus, expect_const, expect_scal, (proj1 (fill_expect fast fuel)) by assumption; lra)).
        specialize (H ops s 0%R Hm Ek Eb Hsm HA). cbn beta in H. rewrite expect_plus, expect_const, expect_scal in H by assumption. lra.
    Qed.

    Lemma rexec_square ops (s : rc F) a : Forall (fun o => rfast o = false /\ rmeth o = Default) ops ->
      rc_k s = k -> rc_size s = bs -> small bs (rc_levels s) -> always (fun _ => True) (rexec s ops) ->
      (expect (fun s' => (INR (lv_rank (rc_levels s') v) + a) ^ 2 - INR (lv_compactions2 (rc_levels s'))) (rexec s ops)
       <= (INR (lv_rank (rc_levels s) v) + (INR (n_le (ritems_of ops) v) + a)) ^ 2 - INR (lv_compactions2 (rc_levels s)))%R.
    Proof.
      intros Hm Ek Eb Hsm HA.
      refine (@rexec_martingale (fun lv a => (INR (lv_rank lv v) + a) ^ 2 - INR (lv_compactions2 lv))%R
                (fun f m => f = false /\ m = Default) _ ops s a Hm Ek Eb Hsm HA).
      intros fast m fuel lv items a' [-> ->] HF.
      eapply Rle_trans; [apply (proj1 (fill_square fuel)); exact HF|]. apply Req_le. ring.
    Qed.
  End Expect.
End RCE.
