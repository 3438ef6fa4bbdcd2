(** RCSketch: the error of a rank is small relative to the rank.

    A compaction of some level matters for the rank of [v] only if it takes items that are at most [v] ("important").
    The compaction counter spaces compactions so that the important ones of a level number at most 1/k of the items at most [v]
    that the level was ever given. *)
From Coq Require Import List Arith ZArith NArith Lia Bool Permutation Sorted Reals Lra.
From Verif Require Import Base Floats Digest Spec FloatFacts History TDigest RCSketch RCProofs RCHist RCRank RCExpect RCTop.
Set Implicit Arguments.
Local Open Scope nat_scope.

(* ------------------------------------------------------------------ *)
(** * One bits from a position on *)

Fixpoint ones_from (s : nat) (c : N) : nat := match s with O => ones c | S s => ones_from s (N.div2 c) end.

Lemma ones_div2 c : ones (N.div2 c) <= ones c <= ones (N.div2 c) + 1.
Proof. destruct c as [|[p|p|]]; cbn [N.div2 ones pos_ones]; lia. Qed.
Lemma ones_from_S s c : ones_from (S s) c <= ones_from s c.
Proof. revert c. induction s as [|s IH]; intros c; cbn [ones_from] in *; [apply ones_div2|apply IH]. Qed.
Lemma ones_from_mono s s' c : s <= s' -> ones_from s' c <= ones_from s c.
Proof. induction 1 as [|s' _ IH]; [lia|]. pose proof (ones_from_S s' c). lia. Qed.
Lemma ones_from_0 s : ones_from s 0 = 0.
Proof. induction s as [|s IH]; [reflexivity|]. exact IH. Qed.

Lemma div2_succ_odd p : N.div2 (Npos (xI p) + 1) = (Npos p + 1)%N.
Proof. rewrite !N.add_1_r. reflexivity. Qed.
Lemma ones_from_above : forall s c, trailing_ones c < s -> ones_from s (c + 1) = ones_from s c.
Proof.
  induction s as [|s IH]; intros c H; [lia|]. cbn [ones_from].
  destruct c as [|[p|p|]]; cbn [trailing_ones pos_trailing_ones] in H.
  - reflexivity.
  - rewrite div2_succ_odd. change (N.div2 (Npos (xI p))) with (Npos p).
    apply IH. cbn [trailing_ones]. lia.
  - reflexivity.
  - destruct s as [|s]; [lia|]. cbn [ones_from]. reflexivity.
Qed.
Lemma ones_from_at c : ones_from (trailing_ones c) (c + 1) = S (ones_from (trailing_ones c) c).
Proof.
  destruct c as [|p]; [reflexivity|]. cbn [trailing_ones].
  induction p as [p IH|p IH|]; cbn [pos_trailing_ones ones_from].
  - rewrite div2_succ_odd. change (N.div2 (Npos (xI p))) with (Npos p). exact IH.
  - reflexivity.
  - reflexivity.
Qed.
Lemma ones_from_below : forall s c, s <= trailing_ones c -> ones_from s c = trailing_ones c - s + ones_from (trailing_ones c) c.
Proof.
  intros s c. destruct c as [|p]; [cbn [trailing_ones]; intros H; replace s with 0 by lia; reflexivity|].
  cbn [trailing_ones]. revert s. induction p as [p IH|p IH|]; cbn [pos_trailing_ones]; intros s H.
  - destruct s as [|s].
    + specialize (IH 0 ltac:(lia)). cbn [ones_from ones pos_ones] in *. change (N.div2 (Npos (xI p))) with (Npos p).
      rewrite Nat.sub_0_r in *. lia.
    + cbn [ones_from]. change (N.div2 (Npos (xI p))) with (Npos p). rewrite (IH s) by lia. reflexivity.
  - replace s with 0 by lia. reflexivity.
  - destruct s as [|[|s]]; [reflexivity|reflexivity|lia].
Qed.
Lemma ones_from_bound : forall T s c, (c < 2 ^ N.of_nat T)%N -> ones_from s c <= T - s.
Proof.
  induction T as [|T IH]; intros s c H.
  - assert (c = 0)%N as -> by (cbn in H; lia). rewrite ones_from_0. lia.
  - rewrite Nat2N.inj_succ, N.pow_succ_r' in H.
    assert (N.div2 c < 2 ^ N.of_nat T)%N as Hd.
    { rewrite N.div2_spec, N.shiftr_div_pow2. change (2 ^ 1)%N with 2%N. apply N.div_lt_upper_bound; lia. }
    destruct s as [|s].
    + specialize (IH 0 _ Hd). pose proof (ones_div2 c). cbn [ones_from] in *. lia.
    + cbn [ones_from]. specialize (IH s _ Hd). lia.
Qed.

(* ------------------------------------------------------------------ *)

Lemma bind_ext_whenever {A B} (m : M A) (f g : A -> M B) : whenever (fun a => f a = g a) m -> bind m f = bind m g.
Proof.
  induction m as [a| | |k IH]; cbn [bind whenever]; intros H; auto.
  f_equal. apply FunctionalExtensionality.functional_extensionality. intros b. apply IH, H.
Qed.

Section RCRel.
  Context {F : Type} {FO : FloatOps F} {FL : FloatLaws F}.
  Notation level := (@level F).

  (** a level with the number of items at most [v] it was ever given and of its important compactions *)
  Definition glevel := (level * (nat * nat))%type.
  Definition erase (lv : list glevel) : list level := map fst lv.

  Section Ghost.
    Variables (k bs : nat) (v : F).

    Definition gensure (lv : list glevel) : glevel * list glevel :=
      match lv with [] => ((([], 0%N), (0, 0)), []) | l :: up => (l, up) end.

    (** [fill] and [drain] (RCSketch.v; insert_at_rc_batch, rc_sketch/rc_sketch.rs:197-238) in default mode, with those two
        numbers kept along; [erase_gfill] shows that the levels are the same *)
    Fixpoint gfill (fuel : nat) (lv : list glevel) (items : list F) : M (list glevel) :=
      match fuel with
      | O => Diverge
      | S fuel' =>
          let '(((b, c), (g, m)), up) := gensure lv in
          match items with
          | [] => Ret (((b, c), (g, m)) :: up)
          | _ =>
              if bs <? length b then Panic
              else let room := bs - length b in
                   do lv' <- gdrain fuel' (b ++ firstn room items) c (g + n_le (firstn room items) v) m up;
                   gfill fuel' lv' (skipn room items)
          end
      end
    with gdrain (fuel : nat) (b : list F) (c : N) (g m : nat) (up : list glevel) : M (list glevel) :=
      match fuel with
      | O => Diverge
      | S fuel' =>
          if length b <? bs then Ret (((b, c), (g, m)) :: up)
          else do (i, c') <- compact_index k bs false b c;
               do (b', out) <- rc_compact b i Default;
               do up' <- gfill fuel' up out;
               gdrain fuel' b' c' g (if n_le b v =? n_le b' v then m else S m) up'
      end.

    Lemma gfill_S fuel lv items : gfill (S fuel) lv items =
      (let '(((b, c), (g, m)), up) := gensure lv in
       match items with
       | [] => Ret (((b, c), (g, m)) :: up)
       | _ => if bs <? length b then Panic
              else do lv' <- gdrain fuel (b ++ firstn (bs - length b) items) c (g + n_le (firstn (bs - length b) items) v) m up;
                   gfill fuel lv' (skipn (bs - length b) items)
       end).
    Proof. reflexivity. Qed.
    Lemma gdrain_S fuel b c g m up : gdrain (S fuel) b c g m up =
      (if length b <? bs then Ret (((b, c), (g, m)) :: up)
       else do (i, c') <- compact_index k bs false b c;
            do (b', out) <- rc_compact b i Default;
            do up' <- gfill fuel up out;
            gdrain fuel b' c' g (if n_le b v =? n_le b' v then m else S m) up').
    Proof. reflexivity. Qed.

    Lemma erase_gfill fuel :
      (forall lv items, (do l <- gfill fuel lv items; Ret (erase l)) = fill k bs false Default fuel (erase lv) items) /\
      (forall b c g m up, (do l <- gdrain fuel b c g m up; Ret (erase l)) = drain k bs false Default fuel b c (erase up)).
    Proof.
      induction fuel as [|fuel [IHf IHd]]; [split; reflexivity|]. split.
      - intros lv items. rewrite gfill_S, fill_S.
        assert (ensure (erase lv) = (fst (fst (gensure lv)), erase (snd (gensure lv)))) as E.
        { destruct lv as [|[[b c] [g m]] up]; reflexivity. }
        destruct (gensure lv) as [[[b c] [g m]] up]. cbn [fst snd] in E. rewrite E.
        destruct items as [|x items]; [reflexivity|]. destruct (bs <? length b); [reflexivity|].
        rewrite bind_assoc.
        rewrite <- (IHd (b ++ firstn (bs - length b) (x :: items)) c (g + n_le (firstn (bs - length b) (x :: items)) v) m up).
        rewrite bind_assoc. apply bind_ext. intros l. cbn [bind]. apply IHf.
      - intros b c g m up. rewrite gdrain_S, drain_S. destruct (length b <? bs); [reflexivity|].
        rewrite bind_assoc. apply bind_ext. intros [i c']. rewrite bind_assoc. apply bind_ext. intros [b' out].
        rewrite bind_assoc. rewrite <- (IHf up out), bind_assoc. apply bind_ext. intros up'. cbn [bind]. apply IHd.
    Qed.

    (** ** the charging argument *)
    Variables (nmax q T : nat).
    Hypothesis Hk : 1 <= k.
    Hypothesis Hbs : 2 <= bs.
    (* the counter has T bits, the buffer more than T sections *)
    Hypothesis HT : k * (T + 1) <= bs.
    (* as long as at most [nmax] items are given to a level, its compactions spare [q] items and its counter stays in range *)
    Hypothesis Hroom : forall c, k * N.to_nat c + bs <= nmax -> (trailing_ones c + 1) * k + q <= bs /\ (c + 1 < 2 ^ N.of_nat T)%N.

    (** one level given [g] items at most [v]: [m] important compactions have removed [rem] of them, [t] is the shortest
        important compaction whose charge may still be in the buffer *)
    Definition paid (b : list F) (c : N) (g m rem R' : nat) : Prop :=
      n_le b v + rem = g /\ (exists t, bs <= n_le b v + (t + 1) * k /\ k * m <= rem + k * ones_from t c) /\
      (m = 0 -> rem = 0) /\ (0 < m -> q < g) /\ rem <= 2 * R' + m /\ 2 * R' <= rem + m /\ (c < 2 ^ N.of_nat T)%N.

    Fixpoint charged (lv : list glevel) (n R : nat) : Prop :=
      match lv with
      | [] => n = 0 /\ R = 0
      | ((b, c), (g, m)) :: up => exists r n' rem R',
          length b + r = n /\ k * N.to_nat c <= r /\ n' <= r /\ g = R /\ paid b c g m rem R' /\ charged up n' R'
      end.

    Lemma paid_grow b c g m rem R' items : paid b c g m rem R' -> paid (b ++ items) c (g + n_le items v) m rem R'.
    Proof.
      intros (H1 & (t & H2 & H3) & H4 & H5 & H6 & H7 & H8). unfold paid. rewrite n_le_app. repeat split; auto; try lia.
      exists t. lia.
    Qed.

    Lemma paid_new : paid [] 0 0 0 0 0.
    Proof.
      unfold paid. cbn [n_le filter length]. repeat split; auto; try lia.
      exists bs. rewrite ones_from_0. nia.
    Qed.

    (** [k] times the important compactions are paid by the items at most [v] given to the level *)
    Lemma paid_all b c g m rem R' : paid b c g m rem R' -> k * m <= g.
    Proof.
      intros (H1 & (t & H2 & H3) & _ & _ & _ & _ & H8).
      pose proof (ones_from_bound T t H8) as Hb.
      assert (k * ones_from t c <= k * (T - t)) as Hk1 by (apply Nat.mul_le_mono_l; exact Hb).
      assert (k * (T - t) <= n_le b v); [|lia].
      destruct (Nat.le_gt_cases t T) as [Ht|Ht]; [nia|]. replace (T - t) with 0 by lia. lia.
    Qed.

    Lemma paid_compact b c g m rem R' lo hi out :
      Permutation b (lo ++ hi) -> StronglySorted (kle (fun x => x)) (lo ++ hi) -> length b = bs ->
      length hi = (trailing_ones c + 1) * k -> q <= length lo -> (c + 1 < 2 ^ N.of_nat T)%N ->
      output_of Default hi out -> paid b c g m rem R' ->
      paid lo (c + 1) g (if n_le b v =? n_le lo v then m else S m) (rem + n_le hi v) (R' + n_le out v).
    Proof.
      intros Hp Hs Hlb Hhi Hq Hc Ho (H1 & (t & H2 & H3) & H4 & H5 & H6 & H7 & H8).
      pose proof (Permutation_length Hp) as Hlen. rewrite app_length in Hlen.
      pose proof (n_le_perm v Hp) as En. rewrite n_le_app in En.
      apply SS_app in Hs as (Hslo & Hshi & Hlh).
      pose proof (out_rank v Hshi Ho) as [O1 O2].
      set (tc := trailing_ones c) in *.
      destruct (Nat.eqb_spec (n_le b v) (n_le lo v)) as [E|E].
      - (* nothing important is compacted *)
        assert (n_le hi v = 0) as Ez by lia. rewrite Ez in *.
        assert (n_le out v = 0) as Eo.
        { destruct Ho as [ch ->]. destruct (every_other_rank v Hshi). destruct ch; lia. }
        rewrite Eo, !Nat.add_0_r. unfold paid. repeat split; auto; try lia.
        exists t. split; [lia|].
        assert (n_le b v <= length lo) as Hle by (pose proof (n_le_length lo v); lia).
        destruct (Nat.lt_trichotomy t tc) as [Ht|[Ht|Ht]].
        + exfalso. assert ((t + 1) * k + k <= (tc + 1) * k) by nia. lia.
        + subst t. unfold tc in *. rewrite ones_from_at. lia.
        + rewrite ones_from_above by exact Ht. lia.
      - assert (1 <= n_le hi v) as Hi1 by lia.
        (* an important item was compacted, so everything kept is important *)
        assert (n_le lo v = length lo) as Elo.
        { unfold n_le in *. rewrite filter_all; [reflexivity|]. apply Forall_forall. intros y Hy.
          destruct (filter (fun x => fle x v) hi) as [|z zs] eqn:Ez; [cbn in Hi1; lia|].
          assert (In z hi /\ fle z v = true) as [Hz1 Hz2] by (apply (filter_In (fun x => fle x v)); rewrite Ez; now left).
          eapply fle_trans; [apply (Hlh y z); auto|exact Hz2]. }
        unfold paid. repeat split; try lia.
        exists tc. split; [lia|].
        assert (ones_from tc (c + 1) = S (ones_from tc c)) as Eat by apply ones_from_at.
        destruct (Nat.le_gt_cases t tc) as [Ht|Ht].
        + pose proof (@ones_from_below t c Ht) as Eb. fold tc in Eb.
          assert ((tc - t) * k <= n_le hi v) as Hrem.
          { assert ((t + 1) * k + (tc - t) * k = (tc + 1) * k) by nia. lia. }
          rewrite Eat, Eb in *. nia.
        + pose proof (@ones_from_mono tc t c ltac:(lia)) as Hm. rewrite Eat. nia.
    Qed.

    Lemma gfill_charged fuel :
      (forall lv items n R, small bs (erase lv) -> charged lv n R -> n + length items <= nmax ->
         whenever (fun lv' => small bs (erase lv') /\ charged lv' (n + length items) (R + n_le items v)) (gfill fuel lv items)) /\
      (forall b c g m up r n' rem R', length b <= bs -> small bs (erase up) -> k * N.to_nat c <= r -> n' <= r ->
         paid b c g m rem R' -> charged up n' R' -> length b + r <= nmax ->
         whenever (fun lv' => small bs (erase lv') /\ charged lv' (length b + r) g) (gdrain fuel b c g m up)).
    Proof.
      induction fuel as [|fuel [IHf IHd]]; [split; intros; exact I|]. split.
      - intros lv items n R Hsm Hch Hn. rewrite gfill_S.
        assert (exists b c g m up r n' rem R', gensure lv = (((b, c), (g, m)), up) /\ length b < bs /\ small bs (erase up) /\
                  length b + r = n /\ k * N.to_nat c <= r /\ n' <= r /\ g = R /\ paid b c g m rem R' /\ charged up n' R')
          as (b & c & g & m & up & r & n' & rem & R' & E & Hlb & Hsu & A1 & A2 & A3 & A4 & A5 & A6).
        { destruct lv as [|[[b c] [g m]] up].
          - destruct Hch as [-> ->]. exists [], 0%N, 0, 0, [], 0, 0, 0, 0. cbn.
            repeat split; auto; try constructor; try lia; apply paid_new.
          - destruct Hch as (r & n' & rem & R' & B1 & B2 & B3 & B4 & B5 & B6).
            pose proof (Forall_inv Hsm) as Hs0. pose proof (Forall_inv_tail Hsm) as Hs1. cbn [fst] in Hs0.
            exists b, c, g, m, up, r, n', rem, R'. cbn [gensure]. repeat split; auto; apply B5. }
        rewrite E. destruct items as [|x items].
        { cbn [whenever erase map fst length]. rewrite Nat.add_0_r. change (n_le [] v) with 0. rewrite Nat.add_0_r.
          split; [now constructor|]. exists r, n', rem, R'. auto 10. }
        destruct (bs <? length b); [exact I|].
        set (its := x :: items) in *.
        assert (length (firstn (bs - length b) its) + length (skipn (bs - length b) its) = length its) as Hsplit.
        { rewrite <- app_length, firstn_skipn. reflexivity. }
        assert (n_le its v = n_le (firstn (bs - length b) its) v + n_le (skipn (bs - length b) its) v) as Hsp.
        { rewrite <- n_le_app, firstn_skipn. reflexivity. }
        assert (length (firstn (bs - length b) its) <= bs - length b) as Htake by (rewrite firstn_length; lia).
        eapply whenever_bind.
        + apply IHd with (r := r) (n' := n') (rem := rem) (R' := R'); auto.
          * rewrite app_length. lia.
          * now apply paid_grow.
          * rewrite app_length. lia.
        + intros lv1 [C1 C2]. eapply whenever_mono; [apply IHf; eauto|].
          * rewrite app_length. lia.
          * cbn beta. intros lv2 [D1 D2]. split; auto. rewrite app_length in D2.
            replace (n + length its) with (length b + length (firstn (bs - length b) its) + r + length (skipn (bs - length b) its)) by lia.
            replace (R + n_le its v) with (g + n_le (firstn (bs - length b) its) v + n_le (skipn (bs - length b) its) v) by lia.
            exact D2.
      - intros b c g m up r n' rem R' Hlb Hsu Hc Hn' Hpaid Hch Hn. rewrite gdrain_S.
        destruct (Nat.ltb_spec (length b) bs) as [Hlt|Hge].
        { cbn [whenever erase map fst]. split; [now constructor|]. exists r, n', rem, R'. repeat split; auto; apply Hpaid. }
        eapply whenever_bind; [apply (compact_index_whenever k bs false b c)|]. intros [i c'] Hi. cbn [fst snd] in Hi.
        destruct Hi as (Hi1 & Hi2 & ->).
        eapply whenever_bind; [apply rc_compact_whenever|]. intros [lo out] (hi & Hp & Hs & Hlo & Ho). cbn [fst snd] in *.
        pose proof (Permutation_length Hp) as Hlen. rewrite app_length in Hlen.
        pose proof (output_length_le _ _ _ Ho) as Hout.
        destruct (@Hroom c ltac:(lia)) as [Hr1 Hr2].
        assert (length hi = (trailing_ones c + 1) * k) as Hhi by lia.
        assert (1 <= length hi) as Hhi1 by nia.
        eapply whenever_bind; [apply IHf with (n := n') (R := R'); auto; lia|].
        intros up' [C1 C2].
        eapply whenever_mono;
          [apply IHd with (r := r + length hi) (n' := n' + length out) (rem := rem + n_le hi v) (R' := R' + n_le out v); auto|].
        + lia.
        + rewrite N2Nat.inj_add. change (N.to_nat 1) with 1. nia.
        + lia.
        + eapply paid_compact; eauto; lia.
        + lia.
        + cbn beta. intros lv [D1 D2]. split; auto.
          replace (length b + r) with (length lo + (r + length hi)) by lia. exact D2.
    Qed.

    (** *** consequences for the final levels *)
    Lemma charged_zero lv n : charged lv n 0 -> lv_rank (erase lv) v = 0.
    Proof.
      revert n. induction lv as [|[[b c] [g m]] up IH]; intros n; cbn [charged erase map fst lv_rank]; [reflexivity|].
      intros (r & n' & rem & R' & _ & _ & _ & -> & Hp & Hch). pose proof (paid_all Hp) as Hm.
      destruct Hp as (H1 & _ & H4 & _ & _ & H7 & _).
      assert (m = 0) as -> by nia. rewrite (H4 eq_refl) in *. assert (R' = 0) as -> by lia.
      unfold erase in IH. rewrite (IH _ Hch). lia.
    Qed.

    (** few enough items at most [v]: no important compaction *)
    Lemma charged_few b c g m up n R : charged (((b, c), (g, m)) :: up) n R -> R <= q ->
      m = 0 /\ n_le b v = R /\ exists n', charged up n' 0.
    Proof.
      intros (r & n' & rem & R' & _ & _ & _ & -> & Hp & Hch) HR.
      destruct Hp as (H1 & _ & H4 & H5 & _ & H7 & _).
      assert (m = 0) as -> by (destruct m; [reflexivity|specialize (H5 ltac:(lia)); lia]).
      rewrite (H4 eq_refl) in *. repeat split; [lia|]. exists n'. assert (R' = 0) as -> by lia. exact Hch.
    Qed.

    Lemma charged_error : forall h lv n R, charged lv n R -> R * (k + 1) ^ h <= q * (2 * k) ^ h ->
      (Z.of_nat k ^ Z.of_nat h * Z.abs (Z.of_nat (lv_rank (erase lv) v) - Z.of_nat R)
       <= Z.of_nat R * ((Z.of_nat k + 1) ^ Z.of_nat h - Z.of_nat k ^ Z.of_nat h))%Z.
    Proof.
      induction h as [|h IH]; intros [|[[b c] [g m]] up] n R Hch HR.
      - destruct Hch as [_ ->]. cbn. lia.
      - cbn [Nat.pow] in HR. destruct (@charged_few b c g m up n R Hch ltac:(lia)) as (_ & E & n' & H0).
        cbn [erase map fst lv_rank]. fold (erase up). rewrite (charged_zero _ _ H0).
        replace (n_le b v + 2 * 0) with R by lia. rewrite Z.sub_diag. cbn. lia.
      - destruct Hch as [_ ->]. cbn [erase map lv_rank]. rewrite Z.mul_0_l. cbn. lia.
      - destruct Hch as (r & n' & rem & R' & _ & _ & _ & -> & Hp & Hch). pose proof (paid_all Hp) as Hm.
        destruct Hp as (H1 & _ & _ & _ & H6 & H7 & _).
        assert (2 * k * R' <= (k + 1) * R) as HR' by nia.
        assert (R' * (k + 1) ^ h <= q * (2 * k) ^ h) as HRh.
        { rewrite !Nat.pow_succ_r' in HR. apply (Nat.mul_le_mono_pos_l _ _ (2 * k)); [lia|].
          assert (2 * k * R' * (k + 1) ^ h <= (k + 1) * R * (k + 1) ^ h) by (apply Nat.mul_le_mono_r; exact HR'). lia. }
        specialize (IH up n' R' Hch HRh). cbn [erase map fst lv_rank]. fold (erase up).
        rewrite Nat2Z.inj_succ, !Z.pow_succ_r by lia.
        set (e := Z.abs (Z.of_nat (lv_rank (erase up) v) - Z.of_nat R')) in *.
        assert (Z.abs (Z.of_nat (n_le b v + 2 * lv_rank (erase up) v) - Z.of_nat R) <= 2 * e + Z.of_nat m)%Z as He by lia.
        set (K := Z.of_nat k) in *. assert (1 <= K)%Z as HK by lia.
        assert (0 < K ^ Z.of_nat h)%Z as HP by (apply Z.pow_pos_nonneg; lia).
        assert (K ^ Z.of_nat h <= (K + 1) ^ Z.of_nat h)%Z as HQ by (apply Z.pow_le_mono_l; lia).
        generalize dependent (K ^ Z.of_nat h)%Z. generalize dependent ((K + 1) ^ Z.of_nat h)%Z. intros Q P IH HP HQ.
        assert (K * Z.of_nat m <= Z.of_nat R)%Z as HmZ by (unfold K; lia).
        assert (2 * K * Z.of_nat R' <= (K + 1) * Z.of_nat R)%Z as HRZ by (unfold K; lia).
        apply Z.le_trans with (K * P * (2 * e + Z.of_nat m))%Z; [apply Z.mul_le_mono_nonneg_l; lia|].
        assert (2 * K * (P * e) <= 2 * K * (Z.of_nat R' * (Q - P)))%Z as J1 by (apply Z.mul_le_mono_nonneg_l; lia).
        assert ((Q - P) * (2 * K * Z.of_nat R') <= (Q - P) * ((K + 1) * Z.of_nat R))%Z as J2 by (apply Z.mul_le_mono_nonneg_l; lia).
        assert (P * (K * Z.of_nat m) <= P * Z.of_nat R)%Z as J3 by (apply Z.mul_le_mono_nonneg_l; lia).
        lia.
    Qed.

    (** 4^level for each important compaction; 4^level for each item at most [v] given to one of the first [h] levels *)
    Fixpoint important2 (lv : list glevel) : nat :=
      match lv with [] => 0 | (_, (_, m)) :: up => m + 4 * important2 up end.
    Fixpoint given2 (h : nat) (lv : list glevel) : nat :=
      match h, lv with S h, (_, (g, _)) :: up => g + 4 * given2 h up | _, _ => 0 end.

    Lemma charged_zero2 lv n : charged lv n 0 -> important2 lv = 0.
    Proof.
      revert n. induction lv as [|[[b c] [g m]] up IH]; intros n; cbn [charged important2]; [reflexivity|].
      intros (r & n' & rem & R' & _ & _ & _ & -> & Hp & Hch). pose proof (paid_all Hp) as Hm.
      destruct Hp as (H1 & _ & H4 & _ & _ & H7 & _).
      assert (m = 0) as -> by nia. rewrite (H4 eq_refl) in *. assert (R' = 0) as -> by lia. rewrite (IH _ Hch). lia.
    Qed.

    Lemma charged_important2 : forall h lv n R, charged lv n R -> R * (k + 1) ^ h <= q * (2 * k) ^ h ->
      k * important2 lv <= given2 h lv.
    Proof.
      induction h as [|h IH]; intros [|[[b c] [g m]] up] n R Hch HR; cbn [important2 given2]; try lia.
      - cbn [Nat.pow] in HR. destruct (@charged_few b c g m up n R Hch ltac:(lia)) as (-> & E & n' & H0).
        rewrite (charged_zero2 _ _ H0). lia.
      - destruct Hch as (r & n' & rem & R' & _ & _ & _ & -> & Hp & Hch). pose proof (paid_all Hp) as Hm.
        destruct Hp as (H1 & _ & _ & _ & H6 & H7 & _).
        assert (2 * k * R' <= (k + 1) * R) as HR' by nia.
        assert (R' * (k + 1) ^ h <= q * (2 * k) ^ h) as HRh.
        { rewrite !Nat.pow_succ_r' in HR. apply (Nat.mul_le_mono_pos_l _ _ (2 * k)); [lia|].
          assert (2 * k * R' * (k + 1) ^ h <= (k + 1) * R * (k + 1) ^ h) by (apply Nat.mul_le_mono_r; exact HR'). lia. }
        specialize (IH up n' R' Hch HRh). lia.
    Qed.
  End Ghost.

  Section Expect.
    Variables (k bs : nat) (v : F).
    Hypothesis Hk : 1 <= k.
    Hypothesis Hbs : 2 <= bs.

    (** the rank if level [h] had kept everything it was given *)
    Fixpoint rank_upto (h : nat) (lv : list glevel) {struct lv} : nat :=
      match lv with
      | [] => 0
      | ((b, _), (g, _)) :: up => match h with O => g | S h => n_le b v + 2 * rank_upto h up end
      end.

    (** given2 is bounded by those ranks *)
    Fixpoint ranks2 (h : nat) (lv : list glevel) : nat :=
      match h with O => 0 | S h => rank_upto h lv * 2 ^ h + ranks2 h lv end.
    Fixpoint given_at (h : nat) (lv : list glevel) {struct lv} : nat :=
      match lv with
      | [] => 0
      | (_, (g, _)) :: up => match h with O => g | S h => given_at h up end
      end.
    Lemma given_at_rank h lv : 2 ^ h * given_at h lv <= rank_upto h lv.
    Proof.
      revert lv. induction h as [|h IH]; intros [|[[b c] [g m]] up]; cbn [given_at rank_upto]; try (cbn; lia).
      specialize (IH up). rewrite Nat.pow_succ_r'. lia.
    Qed.
    Lemma given2_S h lv : given2 (S h) lv = given2 h lv + 4 ^ h * given_at h lv.
    Proof.
      revert lv. induction h as [|h IH]; intros [|[[b c] [g m]] up]; try (cbn; lia).
      change (given2 (S (S h)) (((b, c), (g, m)) :: up)) with (g + 4 * given2 (S h) up).
      rewrite IH. change (given2 (S h) (((b, c), (g, m)) :: up)) with (g + 4 * given2 h up).
      cbn [given_at]. rewrite Nat.pow_succ_r'. lia.
    Qed.
    Lemma given2_ranks2 h lv : given2 h lv <= ranks2 h lv.
    Proof.
      induction h as [|h IH]; [cbn; destruct lv; lia|]. rewrite given2_S. cbn [ranks2].
      pose proof (given_at_rank h lv) as H.
      assert (4 ^ h = 2 ^ h * 2 ^ h) as -> by (rewrite <- Nat.pow_mul_l; reflexivity).
      assert (2 ^ h * (2 ^ h * given_at h lv) <= 2 ^ h * rank_upto h lv) by (apply Nat.mul_le_mono_l; exact H). lia.
    Qed.

    Lemma gfill_expect fuel :
      (forall h lv items, always (fun _ => True) (gfill k bs v fuel lv items) ->
         expect (fun lv' => INR (rank_upto h lv')) (gfill k bs v fuel lv items) = (INR (rank_upto h lv) + INR (n_le items v))%R) /\
      (forall h b c g m up, always (fun _ => True) (gdrain k bs v fuel b c g m up) ->
         expect (fun lv' => INR (rank_upto h lv')) (gdrain k bs v fuel b c g m up) = INR (rank_upto h (((b, c), (g, m)) :: up))).
    Proof.
      induction fuel as [|fuel [IHf IHd]]; [split; intros; contradiction|]. split.
      - intros h lv items. rewrite gfill_S. destruct (gensure lv) as [[[b c] [g m]] up] eqn:E.
        assert (INR (rank_upto h lv) = INR (rank_upto h (((b, c), (g, m)) :: up))) as Elv.
        { destruct lv as [|[[b0 c0] [g0 m0]] up0]; cbn [gensure] in E; injection E; intros; subst; [|reflexivity].
          destruct h; reflexivity. }
        destruct items as [|x items].
        { intros _. cbn [expect]. rewrite Elv. change (INR (n_le [] v)) with 0%R. lra. }
        destruct (bs <? length b); [intros []|]. intros HA.
        erewrite expect_bind_eq with (P := fun _ => True)
          (h := fun lv' => (INR (rank_upto h lv') + INR (n_le (skipn (bs - length b) (x :: items)) v))%R).
        2: exact HA.
        2: apply whenever_true.
        2: { intros lv' _ H. apply IHf; exact H. }
        rewrite expect_plus, expect_const by (eapply always_bind_true; exact HA).
        rewrite IHd by (eapply always_bind_true; exact HA).
        assert (n_le (x :: items) v = n_le (firstn (bs - length b) (x :: items)) v + n_le (skipn (bs - length b) (x :: items)) v) as Hsp.
        { rewrite <- n_le_app, firstn_skipn. reflexivity. }
        rewrite Elv, Hsp, plus_INR.
        destruct h as [|h]; cbn [rank_upto]; rewrite ?n_le_app, !plus_INR; lra.
      - intros h b c g m up. rewrite gdrain_S. destruct (length b <? bs); [reflexivity|].
        intros HA. pose proof (always_bind_true _ _ HA) as Hix.
        apply compact_index_ret in Hix as (i & c' & Ei & _). rewrite Ei in *. cbn [bind] in *.
        pose proof (always_bind_true _ _ HA) as Hco.
        apply compact_coin in Hco as (s & Hp & Hs & His & Es). 2: exact (fun _ => 0%R).
        rewrite Es in *. cbn [bind expect always] in *.
        set (m' := if n_le b v =? n_le (firstn i s) v then m else S m) in *.
        destruct h as [|h].
        { (* the level itself: nothing given to it changes *)
          assert (forall ch, expect (fun lv' => INR (rank_upto 0 lv'))
                    (do up' <- gfill k bs v fuel up (every_other ch (skipn i s));
                     gdrain k bs v fuel (firstn i s) c' g m' up') = INR g) as Hch.
          { intros ch. specialize (HA ch).
            erewrite expect_bind_eq with (P := fun _ => True) (h := fun up' => INR g).
            2: exact HA.
            2: apply whenever_true.
            2: { intros up' _ H. apply (IHd 0); exact H. }
            apply expect_const. eapply always_bind_true; exact HA. }
          rewrite !Hch. cbn [rank_upto]. lra. }
        assert (forall ch, expect (fun lv' => INR (rank_upto (S h) lv'))
                  (do up' <- gfill k bs v fuel up (every_other ch (skipn i s));
                   gdrain k bs v fuel (firstn i s) c' g m' up')
                = (INR (n_le (firstn i s) v) + 2 * (INR (rank_upto h up) + INR (n_le (every_other ch (skipn i s)) v)))%R) as Hch.
        { intros ch. specialize (HA ch).
          erewrite expect_bind_eq with (P := fun _ => True)
            (h := fun up' => (INR (n_le (firstn i s) v) + 2 * INR (rank_upto h up'))%R).
          2: exact HA.
          2: apply whenever_true.
          2: { intros up' _ H. rewrite (IHd (S h)) by exact H. cbn [rank_upto]. rewrite plus_INR, mult_INR. reflexivity. }
          rewrite expect_plus, expect_const, expect_scal by (eapply always_bind_true; exact HA).
          rewrite IHf by (eapply always_bind_true; exact HA). reflexivity. }
        assert (n_le s v = n_le (firstn i s) v + n_le (skipn i s) v) as Esp by (rewrite <- n_le_app, firstn_skipn; reflexivity).
        rewrite !Hch. cbn [rank_upto]. rewrite (n_le_perm v Hp).
        rewrite <- (firstn_skipn i s) in Hs. apply SS_app in Hs as (_ & Hs & _).
        pose proof (n_le_halves v Hs) as Hh.
        rewrite Esp, !plus_INR, mult_INR. change (INR 2) with 2%R. lra.
    Qed.

    (** mean square: only important compactions count *)
    Lemma gfill_square fuel :
      (forall lv items a, always (fun _ => True) (gfill k bs v fuel lv items) ->
         (expect (fun lv' => (INR (lv_rank (erase lv') v) + a) ^ 2 - INR (important2 lv')) (gfill k bs v fuel lv items)
         <= (INR (lv_rank (erase lv) v) + INR (n_le items v) + a) ^ 2 - INR (important2 lv))%R) /\
      (forall b c g m up a, always (fun _ => True) (gdrain k bs v fuel b c g m up) ->
         (expect (fun lv' => (INR (lv_rank (erase lv') v) + a) ^ 2 - INR (important2 lv')) (gdrain k bs v fuel b c g m up)
         <= (INR (n_le b v) + 2 * INR (lv_rank (erase up) v) + a) ^ 2 - (INR m + 4 * INR (important2 up)))%R).
    Proof.
      induction fuel as [|fuel [IHf IHd]]; [split; intros; contradiction|]. split.
      - intros lv items a. rewrite gfill_S. destruct (gensure lv) as [[[b c] [g m]] up] eqn:E.
        assert (INR (lv_rank (erase lv) v) = INR (n_le b v) + 2 * INR (lv_rank (erase up) v) /\
                INR (important2 lv) = INR m + 4 * INR (important2 up))%R as [Elv Ecv].
        { destruct lv as [|[[b0 c0] [g0 m0]] up0]; cbn [gensure] in E; injection E; intros; subst.
          - cbn. lra.
          - cbn [erase map fst lv_rank important2]. rewrite !plus_INR, !mult_INR. split; [reflexivity|]. cbn [INR]. lra. }
        destruct items as [|x items].
        { intros _. cbn [expect]. rewrite Elv, Ecv. cbn [erase map fst lv_rank important2]. rewrite !plus_INR, !mult_INR.
          change (INR (n_le [] v)) with 0%R. fold (erase up). cbn [INR]. apply Req_le. ring. }
        destruct (bs <? length b); [intros []|]. intros HA.
        eapply Rle_trans.
        { eapply expect_bind_le with (P := fun _ => True)
            (h := fun lv' => ((INR (lv_rank (erase lv') v) + (INR (n_le (skipn (bs - length b) (x :: items)) v) + a)) ^ 2
                              - INR (important2 lv'))%R); [exact HA|apply whenever_true|].
          intros lv' _ H. eapply Rle_trans; [apply IHf; exact H|]. apply Req_le. ring. }
        eapply Rle_trans; [apply IHd; eapply always_bind_true; exact HA|].
        assert (n_le (x :: items) v = n_le (firstn (bs - length b) (x :: items)) v + n_le (skipn (bs - length b) (x :: items)) v) as Hsp.
        { rewrite <- n_le_app, firstn_skipn. reflexivity. }
        rewrite Elv, Ecv, n_le_app, Hsp, !plus_INR. apply Req_le. ring.
      - intros b c g m up a. rewrite gdrain_S. destruct (length b <? bs).
        { intros _. cbn [expect erase map fst lv_rank important2]. fold (erase up).
          rewrite !plus_INR, !mult_INR. cbn [INR]. apply Req_le. ring. }
        intros HA. pose proof (always_bind_true _ _ HA) as Hix.
        apply compact_index_ret in Hix as (i & c' & Ei & _). rewrite Ei in *. cbn [bind] in *.
        pose proof (always_bind_true _ _ HA) as Hco.
        apply compact_coin in Hco as (s & Hp & Hs & His & Es). 2: exact (fun _ => 0%R).
        rewrite Es in *. cbn [bind expect always] in *.
        assert (n_le b v = n_le (firstn i s) v + n_le (skipn i s) v) as Esp
          by (rewrite (n_le_perm v Hp), <- n_le_app, firstn_skipn; reflexivity).
        set (m' := if n_le b v =? n_le (firstn i s) v then m else S m) in *.
        assert (forall ch, (expect (fun lv' => (INR (lv_rank (erase lv') v) + a) ^ 2 - INR (important2 lv'))
                  (do up' <- gfill k bs v fuel up (every_other ch (skipn i s));
                   gdrain k bs v fuel (firstn i s) c' g m' up')
                <= (INR (n_le (firstn i s) v) + 2 * (INR (lv_rank (erase up) v) + INR (n_le (every_other ch (skipn i s)) v)) + a) ^ 2
                   - (INR m' + 4 * INR (important2 up)))%R) as Hch.
        { intros ch. specialize (HA ch).
          set (a' := ((INR (n_le (firstn i s) v) + a) / 2)%R).
          eapply Rle_trans.
          { eapply expect_bind_le with (P := fun _ => True)
              (h := fun up' => (4 * ((INR (lv_rank (erase up') v) + a') ^ 2 - INR (important2 up'))
                                + (- INR m'))%R); [exact HA|apply whenever_true|].
            intros up' _ H. eapply Rle_trans; [apply IHd; exact H|]. unfold a'. apply Req_le. field. }
          rewrite expect_plus, expect_const, expect_scal by (eapply always_bind_true; exact HA).
          pose proof (IHf up (every_other ch (skipn i s)) a' ltac:(eapply always_bind_true; exact HA)) as H.
          eapply Rle_trans; [apply Rplus_le_compat_r, Rmult_le_compat_l; [lra|exact H]|].
          unfold a'. apply Req_le. field. }
        pose proof (Hch false) as H0. pose proof (Hch true) as H1.
        rewrite <- (firstn_skipn i s) in Hs. apply SS_app in Hs as (_ & Hs & _).
        destruct (every_other_rank v Hs) as [Q1 Q2].
        assert (INR m' = INR m /\ n_le (skipn i s) v = 0%nat \/ INR m' = INR m + 1)%R as Hm'.
        { unfold m'. destruct (Nat.eqb_spec (n_le b v) (n_le (firstn i s) v)); [left; split; [reflexivity|lia]|right; apply S_INR]. }
        rewrite Esp, <- Q1, !plus_INR.
        set (x0 := n_le (every_other false (skipn i s)) v) in *. set (x1 := n_le (every_other true (skipn i s)) v) in *.
        set (rk := INR (lv_rank (erase up) v)) in *. set (im := INR (important2 up)) in *.
        assert (INR x0 = INR x1 \/ INR x0 = INR x1 + 1 /\ INR m' = INR m + 1)%R as [Ex|[Ex Em]].
        { assert (x0 = x1 \/ x0 = S x1) as [-> | ->] by lia; [left; reflexivity|right]. split; [apply S_INR|].
          destruct Hm' as [[_ Hz]|]; [lia|assumption]. }
        + rewrite Ex in *.
          assert (INR m <= INR m')%R as Hmm by (destruct Hm' as [[-> _]| ->]; lra).
          match goal with |- (_ <= ?r)%R => replace r with
            (((INR (n_le (firstn i s) v) + 2 * (rk + INR x1) + a) ^ 2 - (INR m + 4 * im)))%R by ring end.
          lra.
        + rewrite Ex, Em in *.
          match goal with |- (_ <= ?r)%R => replace r with
            ((((INR (n_le (firstn i s) v) + 2 * (rk + (INR x1 + 1)) + a) ^ 2
               + (INR (n_le (firstn i s) v) + 2 * (rk + INR x1) + a) ^ 2) / 2 - 1
              - (INR m + 4 * im)))%R by field end.
          lra.
    Qed.
  End Expect.
End RCRel.
