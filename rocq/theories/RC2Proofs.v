(** RCSketch2: what compression does. *)
From Coq Require Import List Arith ZArith NArith Lia Bool Permutation Sorted Reals Lra Psatz.
From Verif Require Import Base Floats IEEE Digest Spec FloatFacts History TDigest RCSketch RCProofs RCHist RCRank RCExpect RC2 RC2Sections.
Set Implicit Arguments.
Local Open Scope nat_scope.

Section RC2P.
  Context {F : Type} {FO : FloatOps F} {FL : FloatLaws F}.
  Notation level2 := (@level2 F).

  (** buffers and counters only *)
  Definition plain (lv : list level2) : list (@level F) := map fst lv.
  (** items held *)
  Definition held2 (lv : list level2) : nat := held (plain lv).

  (** ** compression as a relation *)
  Inductive Press (k : N) (fast : bool) (m : method) : nat -> list level2 -> list level2 -> Prop :=
  | Press_done lv : Press k fast m 0 lv lv
  | Press_skip n b c s up up' cp : capacity s = Ret cp -> length b < cp ->
      Press k fast m n up up' -> Press k fast m (S n) (((b, c), s) :: up) (((b, c), s) :: up')
  | Press_compact n b c s up cp i c' lo out s' up' : capacity s = Ret cp -> cp <= length b ->
      (if fast then i = cp / 2 /\ c' = c
       else (N.of_nat (trailing_ones c) + 1 <= fst s)%N /\ (c <> u32_max)%N /\ c' = (c + 1)%N /\
            i = length b / 2 + N.to_nat (fst s - (N.of_nat (trailing_ones c) + 1)) * N.to_nat (as_usize (snd s))) ->
      compacted m b i lo out -> update_sections c' s = Ret s' ->
      Press k fast m n (extend_next k up out) up' ->
      Press k fast m (S n) (((b, c), s) :: up) (((lo, c'), s') :: up').

  Lemma ret_cases_capacity s : (exists cp, capacity s = Ret cp) \/ capacity s = Panic.
  Proof.
    unfold capacity, mul_u32. destruct (_ <? _)%N; cbn [bind]; [auto|]. destruct (_ <? _)%N; cbn [bind]; eauto.
  Qed.
  Lemma ret_cases_update c s : (exists s', update_sections c s = Ret s') \/ update_sections c s = Panic.
  Proof.
    unfold update_sections, mul_u32. destruct (fge _ _); [|eauto]. destruct (_ <? _)%N; cbn [bind]; eauto.
  Qed.

  Lemma held2_cons b c s (up : list level2) : held2 (((b, c), s) :: up) = length b + held2 up.
  Proof. reflexivity. Qed.
  Lemma held2_extend k (up : list level2) out : held2 (extend_next k up out) = length out + held2 up.
  Proof.
    destruct up as [|[[b c] s] up]; cbn [extend_next]; unfold held2, plain, new_level; cbn; [lia|]. rewrite app_length. lia.
  Qed.

  Lemma compacted_length m (b : list F) i lo out : compacted m b i lo out -> length lo = i /\ i <= length b /\
    2 * length out <= length b - i + 1 /\ (Nat.even (length b - i) = true -> 2 * length out = length b - i).
  Proof.
    intros (hi & Hp & _ & Hlo & Ho). pose proof (Permutation_length Hp) as Hl. rewrite app_length in Hl.
    pose proof (output_length_le _ _ _ Ho). pose proof (output_length_even _ _ _ Ho) as He.
    replace (length b - i) with (length hi) by lia. repeat split; auto; lia.
  Qed.

  Lemma compress_whenever k fast m n : forall size lv,
    whenever (fun r => Press k fast m n lv (snd r) /\ fst r + held2 lv = size + held2 (snd r))
             (compress_from k fast m n size lv).
  Proof.
    induction n as [|n IH]; intros size lv; cbn [compress_from].
    { cbn [whenever fst snd]. split; [constructor|lia]. }
    destruct lv as [|[[b c] s] up]; [exact I|].
    destruct (ret_cases_capacity s) as [[cp Ec]|Ec]; rewrite Ec; cbn [bind]; [|exact I].
    destruct (Nat.ltb_spec (length b) cp) as [Hl|Hl].
    { eapply whenever_bind; [apply IH|]. intros [size' up'] [H1 H2]. cbn [whenever fst snd] in *.
      split; [econstructor; eauto|]. rewrite !held2_cons. lia. }
    eapply whenever_bind with (P := fun r => if fast then fst r = cp / 2 /\ snd r = c
       else (N.of_nat (trailing_ones c) + 1 <= fst s)%N /\ (c <> u32_max)%N /\ snd r = (c + 1)%N /\
            fst r = length b / 2 + N.to_nat (fst s - (N.of_nat (trailing_ones c) + 1)) * N.to_nat (as_usize (snd s))).
    { unfold compact_index2. destruct fast.
      - cbn [snd fst]. rewrite Ec. cbn [bind whenever fst snd]. auto.
      - unfold get_compact_index2, bump. destruct s as [ns ss].
        destruct (N.ltb_spec ns (N.of_nat (trailing_ones c) + 1)) as [H|H]; [exact I|].
        destruct (N.eqb_spec c u32_max) as [H'|H']; cbn [bind whenever fst snd]; auto. }
    intros [i c'] Hi. cbn [fst snd] in Hi.
    eapply whenever_bind; [apply rc_compact_whenever|]. intros [lo out] Hc. cbn [fst snd] in Hc.
    pose proof (compacted_length Hc) as (Hlo & Hib & Hout & _).
    destruct (Nat.ltb_spec size (length b - i)) as [Hs|Hs]; [exact I|].
    destruct (ret_cases_update c' s) as [[s' Eu]|Eu]; rewrite Eu; cbn [bind]; [|exact I].
    eapply whenever_bind; [apply IH|]. intros [size' up'] [H1 H2]. cbn [whenever fst snd] in *.
    split; [econstructor; eauto|]. rewrite held2_extend in H2. rewrite !held2_cons. lia.
  Qed.

  (** ** 4 <= k <= 2^24 *)
  Section Ok.
    Variable k : N.
    Hypothesis Hk : k_ok k.
    Let g := min_sec k.
    Let kk := N.to_nat k.

    Definition wf_level (l : level2) : Prop :=
      exists j, wf_sec k j (snd l) /\ counter_ok j (snd (fst l)) /\ (snd (fst l) <= u32_max)%N.
    Definition wf (lv : list level2) : Prop := Forall wf_level lv.

    Lemma wf_new (b : list F) : wf_level (new_level k b).
    Proof.
      exists 0. unfold new_level. cbn [fst snd]. split; [split; [lia|reflexivity]|]. split; [|vm_compute; discriminate].
      unfold counter_ok. vm_compute. reflexivity.
    Qed.
    Lemma wf_extend up out : wf up -> wf (extend_next k up out).
    Proof.
      destruct up as [|[[b c] s] up]; cbn [extend_next]; intros H; [repeat constructor; apply wf_new|].
      constructor; [exact (Forall_inv H)|exact (Forall_inv_tail H)].
    Qed.

    Definition capn (s : sections) : nat := match capacity s with Ret c => c | _ => 0 end.
    Fixpoint totcap (lv : list level2) : nat := match lv with [] => 0 | l :: up => capn (snd l) + totcap up end.

    Lemma capn_wf (b : list F) c s : wf_level ((b, c), s) -> exists j, wf_sec k j s /\ counter_ok j c /\ (c <= u32_max)%N /\ capacity s = Ret (cap k j) /\
      capn s = cap k j /\ 6 * kk <= cap k j.
    Proof.
      intros (j & Hj & Hc & Hu). cbn [fst snd] in *. exists j. unfold capn. rewrite (capacity_val Hk Hj).
      repeat split; auto; try apply Hj. apply cap_ge; auto. apply Hj.
    Qed.

    Lemma total_capacity_val lv : wf lv -> total_capacity lv = Ret (totcap lv).
    Proof.
      induction lv as [|[[b c] s] up IH]; intros H; cbn [total_capacity totcap]; [reflexivity|].
      destruct (capn_wf (Forall_inv H)) as (j & _ & _ & _ & E1 & E2 & _). cbn [snd]. rewrite E1, E2. cbn [bind].
      rewrite IH by exact (Forall_inv_tail H). reflexivity.
    Qed.

    Lemma g_ge : 1 <= g.
    Proof. apply min_sec_ge, Hk. Qed.
    Lemma kk_ge : 4 <= kk.
    Proof. unfold kk. destruct Hk. lia. Qed.
    Lemma g_le : g <= kk.
    Proof. unfold g, kk. rewrite <- (sec_0 Hk). apply min_sec_le; [exact Hk|lia]. Qed.

    (** one compaction *)
    Lemma compact_facts (fast : bool) (b : list F) c s cp i c' s' :
      wf_level ((b, c), s) -> capacity s = Ret cp -> cp <= length b ->
      (if fast then i = cp / 2 /\ c' = c
       else (N.of_nat (trailing_ones c) + 1 <= fst s)%N /\ (c <> u32_max)%N /\ c' = (c + 1)%N /\
            i = length b / 2 + N.to_nat (fst s - (N.of_nat (trailing_ones c) + 1)) * N.to_nat (as_usize (snd s))) ->
      6 * kk <= cp /\ 3 * kk <= i /\ (i + g <= length b /\ (cp < length b -> i + g < length b) /\
        (if fast then i + 3 * kk <= length b else N.odd c = true -> i + 2 * g <= length b)) /\ (c' <= u32_max)%N /\
      (update_sections c' s = Ret s' -> (forall lo : list F, wf_level ((lo, c'), s')) /\ cp <= capn s') /\
      (exists s'', update_sections c' s = Ret s'').
    Proof.
      intros Hwf Ecp Hl Hi. destruct (capn_wf Hwf) as (j & Hj & Hc & Hu & E1 & E2 & E3).
      rewrite Ecp in E1. injection E1 as ->.
      destruct (sec_floor Hk (proj1 Hj)) as (r & _ & _ & _ & Eus & _ & Hsec & _).
      pose proof (num_le (proj1 Hj)) as Hnum. pose proof (min_sec_le Hk (proj1 Hj)) as Hmin. fold g in Hmin.
      pose proof (trailing_lt (proj1 Hj) Hc) as Ht. pose proof g_ge as Hg. pose proof kk_ge as Hkk. pose proof g_le as Hgk.
      assert (3 * kk <= i /\ (i + g <= length b /\ (cap k j < length b -> i + g < length b) /\
        (if fast then i + 3 * kk <= length b else N.odd c = true -> i + 2 * g <= length b)) /\ (c' <= 2 ^ N.of_nat (num j - 1))%N /\ (c' <= u32_max)%N) as (H1 & H2 & H3 & H4).
      { destruct fast.
        - destruct Hi as [-> ->]. pose proof (Nat.div_mod (cap k j) 2). pose proof (Nat.mod_upper_bound (cap k j) 2).
          unfold counter_ok in Hc. repeat split; try lia.
        - destruct Hi as (_ & Hcu & -> & ->). unfold counter_ok in Hc.
          assert (N.to_nat (fst s - (N.of_nat (trailing_ones c) + 1)) = num j - (trailing_ones c + 1)) as ->.
          { destruct Hj as [_ ->]. cbn [fst]. lia. }
          assert (N.to_nat (as_usize (snd s)) = sec k j) as ->.
          { destruct Hj as [_ ->]. cbn [snd]. rewrite Eus. lia. }
          unfold cap in *. set (t := trailing_ones c) in *. set (q := sec k j) in *. set (ns := num j) in *.
          replace (2 * ns * q) with (2 * (ns * q)) in * by ring.
          pose proof (Nat.div_mod (length b) 2). pose proof (Nat.mod_upper_bound (length b) 2).
          assert (ns * q <= length b / 2) by (apply Nat.div_le_lower_bound; lia).
          assert ((ns - (t + 1)) * q + (t + 1) * q = ns * q) as Hsp by (rewrite <- Nat.mul_add_distr_r; f_equal; lia).
          assert (q <= (t + 1) * q) by nia.
          assert (N.odd c = true -> 2 * q <= (t + 1) * q) as Hodd by (intros Hodd; pose proof (trailing_ones_odd c Hodd); nia).
          clearbody q ns t. generalize dependent ((ns - (t + 1)) * q). generalize dependent ((t + 1) * q). generalize dependent (ns * q). intros z Z1 Z2 Z3 Z4 Z5 y Y1 Y2 x X1.
          repeat split; try lia. intros Hod. match goal with H : N.odd c = true -> _ |- _ => specialize (H Hod) end. lia. }
      split; [lia|]. split; [lia|]. split; [exact H2|]. split; [exact H4|].
      destruct (update_val Hk Hj H3 H4) as (j' & s'' & Eup & Hj' & Hc' & Hcap).
      split; [|exists s''; exact Eup]. rewrite Eup. intros E. injection E as <-. split.
      - intros lo. exists j'. auto.
      - unfold capn. rewrite (capacity_val Hk Hj'). exact Hcap.
    Qed.

    Arguments compact_facts {fast b c s cp i c'} s' _ _ _ _.

    (** *** what compression preserves *)
    Lemma Press_wf fast m n lv lv' : Press k fast m n lv lv' -> wf lv -> wf lv'.
    Proof.
      induction 1 as [lv|n b c s up up' cp Ec Hl HP IH|n b c s up cp i c' lo out s' up' Ec Hl Hi Hc Hu HP IH]; intros Hwf; auto.
      - constructor; [exact (Forall_inv Hwf)|]. apply IH. exact (Forall_inv_tail Hwf).
      - destruct (compact_facts s' (Forall_inv Hwf) Ec Hl Hi) as (_ & _ & _ & _ & H & _).
        constructor; [apply H, Hu|]. apply IH, wf_extend. exact (Forall_inv_tail Hwf).
    Qed.

    Lemma totcap_extend up out : totcap up <= totcap (extend_next k up out).
    Proof. destruct up as [|[[b c] s] up]; cbn [extend_next totcap snd]; lia. Qed.

    Lemma out_le m (b : list F) i lo out : compacted m b i lo out -> i + g <= length b -> length lo + length out <= length b.
    Proof. intros Hc Hi. pose proof (compacted_length Hc) as (-> & _ & H & _). pose proof g_ge. lia. Qed.
    Lemma out_small m (b : list F) i lo out : compacted m b i lo out -> i + g < length b -> length lo + length out < length b.
    Proof. intros Hc Hi. pose proof (compacted_length Hc) as (-> & _ & H & _). pose proof g_ge. lia. Qed.
    Lemma extend_longer (up : list level2) out : length up <= length (extend_next k up out).
    Proof. destruct up as [|[[? ?] ?] ?]; cbn; lia. Qed.
    Lemma extend_length (up : list level2) out : up <> [] -> length (extend_next k up out) = length up /\ totcap (extend_next k up out) = totcap up.
    Proof. destruct up as [|[[? ?] ?] ?]; [contradiction|]. intros _. split; reflexivity. Qed.

    Lemma Press_sizes fast m n lv lv' : Press k fast m n lv lv' -> wf lv ->
      held2 lv' <= held2 lv /\ totcap lv <= totcap lv' /\ length lv <= length lv' /\
      (n = length lv -> totcap lv < held2 lv -> held2 lv' < held2 lv).
    Proof.
      induction 1 as [lv|n b c s up up' cp Ec Hl HP IH|n b c s up cp i c' lo out s' up' Ec Hl Hi Hc Hu HP IH]; intros Hwf.
      - repeat split; auto. intros E Hlt. destruct lv; [cbn in Hlt; lia|discriminate].
      - destruct IH as (I1 & I2 & I3 & I4); [exact (Forall_inv_tail Hwf)|].
        rewrite !held2_cons. cbn [totcap snd length]. repeat split; try lia.
        intros E Hle. unfold capn in Hle. rewrite Ec in Hle. specialize (I4 ltac:(lia) ltac:(lia)). lia.
      - destruct (compact_facts s' (Forall_inv Hwf) Ec Hl Hi) as (_ & _ & (Hg & Hg' & _) & _ & H & _).
        destruct (H Hu) as [_ Hcap].
        destruct IH as (I1 & I2 & I3 & I4); [apply wf_extend; exact (Forall_inv_tail Hwf)|].
        rewrite held2_extend in I1, I4. pose proof (totcap_extend up out). pose proof (out_le Hc Hg).
        rewrite !held2_cons. cbn [totcap snd length]. unfold capn. rewrite Ec. fold (capn s').
        pose proof (extend_longer up out). repeat split; try lia.
        intros E Hlt. destruct (le_lt_dec (length b) cp) as [Hb|Hb].
        + destruct up as [|l up]; [cbn in Hlt; lia|].
          destruct (@extend_length (l :: up) out ltac:(discriminate)) as [E1 E2]. rewrite E1, E2 in I4.
          specialize (I4 ltac:(cbn in *; lia) ltac:(lia)). lia.
        + pose proof (out_small Hc (Hg' Hb)). lia.
    Qed.

    (** a full sketch is below its capacity after compression: it holds less or has more levels *)
    Lemma Press_room fast m n lv lv' : Press k fast m n lv lv' -> wf lv -> n = length lv -> lv <> [] -> held2 lv <= totcap lv ->
      held2 lv' < totcap lv'.
    Proof.
      induction 1 as [lv|n b c s up up' cp Ec Hl HP IH|n b c s up cp i c' lo out s' up' Ec Hl Hi Hc Hu HP IH]; intros Hwf E Hne Hle.
      - destruct lv; [contradiction|discriminate].
      - destruct (Press_sizes HP (Forall_inv_tail Hwf)) as (I1 & I2 & I3 & I4).
        rewrite !held2_cons in *. cbn [totcap snd length] in *. unfold capn in Hle at 1 |- * at 1. rewrite Ec in *.
        destruct (le_lt_dec (held2 up) (totcap up)) as [H|H]; [lia|]. specialize (I4 ltac:(lia) H). lia.
      - destruct (compact_facts s' (Forall_inv Hwf) Ec Hl Hi) as (_ & _ & (Hg & Hg' & _) & _ & H & _).
        destruct (H Hu) as [_ Hcap].
        destruct (Press_sizes HP (wf_extend out (Forall_inv_tail Hwf))) as (I1 & I2 & I3 & I4).
        rewrite held2_extend in I1, I4. pose proof (totcap_extend up out). pose proof (out_le Hc Hg).
        rewrite !held2_cons in *. cbn [totcap snd length] in *. unfold capn in Hle at 1. rewrite Ec in Hle.
        destruct (le_lt_dec (length b) cp) as [Hb|Hb]; [|pose proof (out_small Hc (Hg' Hb)); lia].
        destruct up as [|l up].
        + cbn [extend_next totcap] in I2. destruct (capn_wf (wf_new out)) as (j & _ & _ & _ & _ & E2 & E3).
          cbn [snd new_level] in I2. rewrite E2 in I2. pose proof kk_ge. cbn in I1. cbn in Hle. lia.
        + destruct (@extend_length (l :: up) out ltac:(discriminate)) as [E1 E2]. rewrite E1, E2 in I4.
          destruct (le_lt_dec (length lo + length out) (length b - 1)) as [Hs|Hs]; [pose proof g_ge; lia|].
          assert (1 <= length out) as Hout by (pose proof (compacted_length Hc) as (Hlo & _); pose proof g_ge; lia).
          destruct (le_lt_dec (length out + held2 (l :: up)) (totcap (l :: up))) as [Hx|Hx]; [lia|].
          specialize (I4 ltac:(cbn in *; lia) Hx). lia.
    Qed.

    Lemma all_in_extend (P : F -> Prop) up out : all_in P (plain up) -> Forall P out -> all_in P (plain (extend_next k up out)).
    Proof.
      destruct up as [|[[b c] s] up]; cbn [extend_next plain map new_level fst]; intros H Ho.
      - repeat constructor. exact Ho.
      - constructor; [|exact (Forall_inv_tail H)]. cbn [fst]. apply Forall_app. split; [exact (Forall_inv H)|exact Ho].
    Qed.

    Lemma Press_all_in fast m n lv lv' (P : F -> Prop) : Press k fast m n lv lv' ->
      (forall hi out, output_of m hi out -> Forall P hi -> Forall P out) -> all_in P (plain lv) -> all_in P (plain lv').
    Proof.
      intros HP Hout. induction HP as [lv|n b c s up up' cp Ec Hl HP IH|n b c s up cp i c' lo out s' up' Ec Hl Hi Hc Hu HP IH]; intros Ha; auto.
      - constructor; [exact (Forall_inv Ha)|]. apply IH. exact (Forall_inv_tail Ha).
      - destruct Hc as (hi & Hp & _ & _ & Ho). pose proof (Forall_inv Ha) as Hb. cbn [fst] in Hb.
        rewrite Hp in Hb. apply Forall_app in Hb as [Hlo Hhi].
        constructor; [exact Hlo|]. apply IH, all_in_extend; [exact (Forall_inv_tail Ha)|eauto].
    Qed.

    (** [fits2 lv n]: the bottom level received [n] items: those it holds and [r] it compacted.  Each counted compaction took
        at least [g]; at most (o+1)/2o of them went up, for an odd [o <= g + 1];
        and at most 3/4 of them, up to one item (two compactions in a row take g and at least 2 g items). *)
    Variable o : nat.
    Hypothesis Ho : Nat.odd o = true /\ o <= g + 1.
    Fixpoint fits2 (lv : list level2) (n : nat) : Prop :=
      match lv with
      | [] => n = 0
      | ((b, c), _) :: up => exists r n', length b + r = n /\ g * N.to_nat c <= r /\ (2 * o * n' <= (o + 1) * r /\ 4 * n' <= 3 * r + Nat.b2n (N.odd c)) /\
                               (up <> [] -> 6 * kk <= n) /\ fits2 up n'
      end.

    Lemma fits2_extend up n out : fits2 up n -> fits2 (extend_next k up out) (n + length out) /\ extend_next k up out <> [].
    Proof.
      destruct up as [|[[b c] s] up]; cbn [extend_next fits2]; intros H; (split; [|discriminate]).
      - subst. exists 0, 0. cbn. repeat split; try lia; try contradiction.
      - destruct H as (r & n' & H1 & H2 & H3 & H4 & H5). exists r, n'. rewrite app_length.
        split; [lia|]. split; [exact H2|]. split; [exact H3|]. split; [|exact H5]. intros Hne. specialize (H4 Hne). lia.
    Qed.

    Lemma ratio u x : g <= u -> 2 * x <= u + 1 -> (Nat.even u = true -> 2 * x = u) -> 2 * o * x <= (o + 1) * u.
    Proof.
      intros Hg Hx He. destruct Ho as [Hodd Hle].
      destruct (le_lt_dec o u) as [H|H].
      - nia.
      - assert (u = g /\ o = u + 1) as [-> ->] by lia.
        rewrite Nat.add_1_r, Nat.odd_succ in Hodd. specialize (He Hodd). nia.
    Qed.

    Lemma ratio4 (fast : bool) u x c c' : g <= u -> 2 * x <= u + 1 -> (Nat.even u = true -> 2 * x = u) ->
      (if fast then 3 * kk <= u else N.odd c = true -> 2 * g <= u) -> (if fast then c' = c else c' = (c + 1)%N) ->
      4 * x + Nat.b2n (N.odd c) <= 3 * u + Nat.b2n (N.odd c').
    Proof.
      intros Hg Hx He Hu Hc. pose proof g_ge. pose proof kk_ge. destruct fast; [subst c'; lia|]. subst c'.
      rewrite N.add_1_r, N.odd_succ, <- N.negb_odd. destruct (N.odd c); cbn [negb Nat.b2n]; [|lia].
      specialize (Hu eq_refl). destruct (Nat.eq_dec u 2) as [->|]; [specialize (He eq_refl); lia|lia].
    Qed.

    Lemma Press_fits fast m n lv lv' : Press k fast m n lv lv' -> wf lv -> forall N, fits2 lv N -> fits2 lv' N.
    Proof.
      induction 1 as [lv|n b c s up up' cp Ec Hl HP IH|n b c s up cp i c' lo out s' up' Ec Hl Hi Hc Hu HP IH]; intros Hwf N HN; auto.
      - destruct HN as (r & n' & H1 & H2 & H3 & H4 & H5). exists r, n'.
        pose proof (Forall_inv_tail Hwf) as Hwu.
        split; [exact H1|]. split; [exact H2|]. split; [exact H3|]. split; [|auto].
        intros Hne. apply H4. intros ->. apply Hne. inversion HP. reflexivity.
      - destruct HN as (r & n' & H1 & H2 & H3 & H4 & H5).
        destruct (compact_facts s' (Forall_inv Hwf) Ec Hl Hi) as (Hcp & _ & (Hg & _ & Hpar) & _ & _ & _).
        pose proof (compacted_length Hc) as (Hlo & Hib & Hout & Heven).
        exists (r + (length b - i)), (n' + length out).
        assert (g <= length b - i) as Hgu by lia. pose proof (@ratio _ _ Hgu Hout Heven) as Hr.
        assert (4 * length out + Nat.b2n (N.odd c) <= 3 * (length b - i) + Nat.b2n (N.odd c')) as Hr4.
        { apply (@ratio4 fast); auto; destruct fast; [lia|intros Hx; specialize (Hpar Hx); lia|apply Hi|apply Hi]. }
        repeat split; try lia.
        + destruct fast; [destruct Hi as [_ ->]; lia|]. destruct Hi as (_ & _ & -> & _).
          rewrite N2Nat.inj_add. change (N.to_nat 1) with 1. nia.
        + apply IH; [apply wf_extend; exact (Forall_inv_tail Hwf)|]. now apply fits2_extend.
    Qed.

    Lemma fits2_levels : forall h lv n, fits2 lv n -> length lv = S (S h) -> 6 * kk * (2 * o) ^ h <= (o + 1) ^ h * n.
    Proof.
      induction h as [|h IH]; intros lv n H Hl.
      - destruct lv as [|[[b c] s] [|l up]]; try discriminate. destruct H as (r & n' & _ & _ & _ & H & _).
        cbn [Nat.pow]. specialize (H ltac:(discriminate)). lia.
      - destruct lv as [|[[b c] s] up]; [discriminate|]. destruct H as (r & n' & H1 & H2 & [H3 _] & _ & H5).
        specialize (IH up n' H5 ltac:(cbn in Hl; lia)). cbn [Nat.pow].
        assert (2 * o * n' <= (o + 1) * n) by nia.
        set (x := (2 * o) ^ h) in *. set (y := (o + 1) ^ h) in *.
        assert (6 * kk * (2 * o * x) <= 2 * o * (y * n')) by nia. nia.
    Qed.

    Lemma fits2_levels4 : forall h lv n, fits2 lv n -> length lv = S (S h) -> 1 <= n /\ (6 * kk - 1) * 4 ^ h <= 3 ^ h * (n - 1).
    Proof.
      pose proof kk_ge as Hkk. pose proof g_ge as Hg1. induction h as [|h IH]; intros lv n H Hl.
      - destruct lv as [|[[b c] s] [|l up]]; try discriminate. destruct H as (r & n' & _ & _ & _ & H & _).
        cbn [Nat.pow]. specialize (H ltac:(discriminate)). lia.
      - destruct lv as [|[[b c] s] up]; [discriminate|]. destruct H as (r & n' & H1 & H2 & [_ H3] & H4 & H5).
        specialize (IH up n' H5 ltac:(cbn in Hl; lia)). cbn [Nat.pow].
        assert (up <> []) as Hne by (intros ->; discriminate). specialize (H4 Hne).
        assert (4 * (n' - 1) <= 3 * (n - 1)) as Hn by (destruct (N.odd c); cbn [Nat.b2n] in H3; lia).
        split; [lia|]. destruct IH as [_ IH].
        set (x := 4 ^ h) in *. set (y := 3 ^ h) in *. set (e := 6 * kk - 1) in *. clearbody e x y.
        assert (e * (4 * x) <= 4 * (y * (n' - 1))) by nia.
        assert (4 * (y * (n' - 1)) <= 3 * (y * (n - 1))) by nia. nia.
    Qed.

    (** *** compression does not fail *)
    Lemma compress_always fast m P n : forall lv size N, keeps m P -> wf lv -> all_in P (plain lv) -> fits2 lv N ->
      (fast = false -> (N.of_nat N <= N.of_nat g * u32_max)%N) -> held2 lv <= size -> n <= length lv ->
      always (fun _ => True) (compress_from k fast m n size lv).
    Proof.
      induction n as [|n IH]; intros lv size N HP Hwf Ha HN Hmax Hsz Hn; cbn [compress_from]; [exact I|].
      destruct lv as [|[[b c] s] up]; [cbn in Hn; lia|].
      destruct (capn_wf (Forall_inv Hwf)) as (j & Hj & Hc & Hu & E1 & E2 & E3). rewrite E1. cbn [bind].
      pose proof (Forall_inv_tail Hwf) as Hwu. pose proof (Forall_inv_tail Ha) as Hau. fold (plain up) in Hau.
      destruct HN as (r & n' & H1 & H2 & [H3 _] & H4 & H5). rewrite held2_cons in Hsz. cbn [length] in Hn.
      pose proof g_ge as Hg2. pose proof kk_ge as Hkk.
      assert (n' <= N) as Hn'N by (destruct Ho as [Hodd _]; assert (1 <= o) by (destruct o; [discriminate|lia]); nia).
      destruct (Nat.ltb_spec (length b) (cap k j)) as [Hl|Hl].
      - eapply always_bind with (P := fun _ => True).
        + eapply IH with (N := n'); eauto; try lia. intros Hfast. specialize (Hmax Hfast). lia.
        + intros [size' up'] _. exact I.
      - set (ix := fun r : nat * Coq.Numbers.BinNums.N => if fast then fst r = cap k j / 2 /\ snd r = c
           else (N.of_nat (trailing_ones c) + 1 <= fst s)%N /\ (c <> u32_max)%N /\ snd r = (c + 1)%N /\
            fst r = length b / 2 + N.to_nat (fst s - (N.of_nat (trailing_ones c) + 1)) * N.to_nat (as_usize (snd s))).
        eapply always_bind with (P := ix).
        { unfold compact_index2, ix. destruct fast.
          - cbn [snd fst]. rewrite E1. cbn [bind always fst snd]. auto.
          - unfold get_compact_index2, bump. pose proof (trailing_lt (proj1 Hj) Hc) as Ht. destruct Hj as [Hj4 ->].
            destruct (N.ltb_spec (N.of_nat (num j)) (N.of_nat (trailing_ones c) + 1)) as [H|H]; [lia|].
            destruct (N.eqb_spec c u32_max) as [H'|H']; cbn [bind always fst snd]; [|auto].
            exfalso. specialize (Hmax eq_refl). rewrite H' in H2. nia. }
        intros [i c'] Hi. unfold ix in Hi. cbn [fst snd] in Hi.
        destruct (compact_facts s (Forall_inv Hwf) E1 Hl Hi) as (_ & _ & (Hgi & _ & Hpar) & _ & _ & s' & Eu).
        destruct (compact_facts s' (Forall_inv Hwf) E1 Hl Hi) as (_ & _ & _ & _ & Hnew & _).
        pose proof (Forall_inv Ha) as Hb. cbn [fst] in Hb.
        eapply always_bind.
        { apply rc_compact_always; [|lia]. eapply Forall_impl; [|exact Hb]. apply HP. }
        intros [lo out] Hcp. cbn [fst snd] in Hcp.
        destruct (Nat.ltb_spec size (length b - i)) as [Hs|Hs]; [lia|].
        rewrite Eu. cbn [bind]. pose proof (compacted_length Hcp) as (Hlo & Hib & Hout & Heven).
        eapply always_bind with (P := fun _ => True).
        + destruct (@fits2_extend up n' out H5) as [Hf Hne].
          eapply IH with (N := n' + length out); eauto.
          * apply wf_extend; auto.
          * apply all_in_extend; auto. destruct Hcp as (hi & Hp & _ & _ & Hod).
            rewrite Hp in Hb. apply Forall_app in Hb as [_ Hhi]. destruct HP as [_ HP]. eauto.
          * intros Hfast. specialize (Hmax Hfast).
            assert (g <= length b - i) as Hgu by lia. pose proof (@ratio _ _ Hgu Hout Heven) as Hr.
            assert (n' + length out <= N); [|lia].
            destruct Ho as [Hodd _]. assert (1 <= o) by (destruct o; [discriminate|lia]).
            assert (2 * o * (n' + length out) <= (o + 1) * N) by nia. nia.
          * rewrite held2_extend. lia.
          * destruct up as [|[[? ?] ?] ?]; cbn [extend_next length] in *; lia.
        + intros [size' up'] _. exact I.
    Qed.
  End Ok.
End RC2P.
