(** RCSketch: compaction, termination and absence of panics. *)
From Coq Require Import List Arith ZArith NArith Lia Bool Permutation Sorted.
From Verif Require Import Base Floats Digest Spec FloatFacts History TDigest RCSketch.
Set Implicit Arguments.

(* ------------------------------------------------------------------ *)
(** * Counters *)

Lemma pos_trailing_ones_bound p : (2 ^ N.of_nat (pos_trailing_ones p) <= Npos p + 1)%N.
Proof.
  induction p as [p IH|p IH|]; cbn [pos_trailing_ones].
  - rewrite Nat2N.inj_succ, N.pow_succ_r'. lia.
  - cbn. lia.
  - cbn. lia.
Qed.
Lemma trailing_ones_bound c : (2 ^ N.of_nat (trailing_ones c) <= c + 1)%N.
Proof. destruct c as [|p]; [cbn; lia|]. apply pos_trailing_ones_bound. Qed.
Lemma trailing_ones_odd c : N.odd c = true -> 1 <= trailing_ones c.
Proof. destruct c as [|[p|p|]]; cbn; intros; try discriminate; lia. Qed.

(** the i-th counter value is reached after removing at least this many sections *)
Lemma N_half_step c : (c + 1 + (c + 1) / 2 <= c + c / 2 + N.of_nat (trailing_ones c + 1))%N.
Proof.
  assert (forall d : N, (2 * d) / 2 = d /\ (2 * d + 1) / 2 = d /\ (2 * d + 1 + 1) / 2 = d + 1)%N as D.
  { intros d. repeat split.
    - rewrite N.mul_comm. apply N.div_mul. lia.
    - replace (2 * d + 1)%N with (1 + d * 2)%N by lia. rewrite N.div_add by lia. reflexivity.
    - replace (2 * d + 1 + 1)%N with ((d + 1) * 2)%N by lia. apply N.div_mul. lia. }
  destruct (N.odd c) eqn:E.
  - pose proof (trailing_ones_odd _ E) as Ho.
    apply N.odd_spec in E as [d Hd]. destruct (D d) as (D1 & D2 & D3).
    rewrite <- Hd in D2, D3. rewrite D2, D3. lia.
  - assert (N.even c = true) as Ev by (rewrite <- N.negb_odd, E; reflexivity).
    apply N.even_spec in Ev as [d Hd]. destruct (D d) as (D1 & D2 & D3).
    rewrite <- Hd in D1, D2. rewrite D1, D2. lia.
Qed.

(* ------------------------------------------------------------------ *)
(** * Every other element *)

Lemma every_other_length {A} (l : list A) :
  length (every_other false l) = (length l + 1) / 2 /\ length (every_other true l) = length l / 2.
Proof.
  induction l as [|x l [IH1 IH2]]; [split; reflexivity|].
  cbn [every_other length]. split.
  - rewrite IH2. replace (S (length l) + 1) with (length l + 1 * 2) by lia. rewrite Nat.div_add by lia. lia.
  - rewrite IH1. f_equal. lia.
Qed.
Lemma every_other_length_le {A} ch (l : list A) : 2 * length (every_other ch l) <= length l + 1.
Proof.
  destruct (every_other_length l) as [H1 H2].
  destruct ch; rewrite ?H1, ?H2.
  - pose proof (Nat.mul_div_le (length l) 2). lia.
  - pose proof (Nat.mul_div_le (length l + 1) 2). lia.
Qed.
Lemma every_other_length_even {A} ch (l : list A) : Nat.even (length l) = true -> 2 * length (every_other ch l) = length l.
Proof.
  intros H. apply Nat.even_spec in H as [d Hd].
  destruct (every_other_length l) as [H1 H2].
  destruct ch; rewrite ?H1, ?H2, Hd.
  - rewrite (Nat.mul_comm 2 d), Nat.div_mul; lia.
  - replace (2 * d + 1) with (1 + d * 2) by lia. rewrite Nat.div_add by lia. change (1 / 2) with 0. lia.
Qed.
Lemma every_other_perm {A} (l : list A) : Permutation (every_other false l ++ every_other true l) l.
Proof.
  induction l as [|x l IH]; cbn [every_other app]; [constructor|].
  constructor. rewrite Permutation_app_comm. exact IH.
Qed.
Lemma every_other_In {A} ch (l : list A) x : In x (every_other ch l) -> In x l.
Proof.
  intros H. eapply Permutation_in; [apply every_other_perm|].
  apply in_app_iff. destruct ch; auto.
Qed.

(* ------------------------------------------------------------------ *)

Section RCP.
  Context {F : Type} {FO : FloatOps F} {FL : FloatLaws F}.

  Lemma averages_length (l : list F) : 2 * length (averages l) <= length l /\
    (Nat.even (length l) = true -> 2 * length (averages l) = length l).
  Proof.
    assert (forall n, forall l : list F, length l <= n -> 2 * length (averages l) <= length l /\
      (Nat.even (length l) = true -> 2 * length (averages l) = length l)) as H.
    { induction n as [|n IH]; intros [|x [|y l']] Hl; cbn [length averages] in *;
        try (split; [lia|intros E; cbn in E; try discriminate; lia]); try lia.
      destruct (IH l' ltac:(lia)) as [H1 H2]. split; [lia|]. intros E. cbn in E. apply H2 in E. lia. }
    eapply H; reflexivity.
  Qed.

  (** ** what one compaction does *)
  Definition output_of (m : method) (hi out : list F) : Prop :=
    match m with Default => exists ch, out = every_other ch hi | AverageNeighbour => out = averages hi end.
  Definition compacted (m : method) (b : list F) (i : nat) (lo out : list F) : Prop :=
    exists hi, Permutation b (lo ++ hi) /\ StronglySorted (kle (fun x => x)) (lo ++ hi) /\
               length lo = i /\ output_of m hi out.

  Lemma output_length_le m hi out : output_of m hi out -> 2 * length out <= length hi + 1.
  Proof.
    destruct m; [intros [ch ->]; apply every_other_length_le|intros ->].
    pose proof (averages_length hi). lia.
  Qed.
  Lemma output_length_even m hi out : output_of m hi out -> Nat.even (length hi) = true -> 2 * length out = length hi.
  Proof.
    destruct m; [intros [ch ->]; apply every_other_length_even|intros ->]. apply averages_length.
  Qed.

  Lemma rc_compact_always m (b : list F) i : no_nan b -> i <= length b ->
    always (fun r => compacted m b i (fst r) (snd r)) (rc_compact b i m).
  Proof.
    intros Hn Hi. unfold rc_compact. eapply always_bind.
    - eapply sort_by_key_ok with (Q := fun s => Permutation b s /\ StronglySorted (kle (fun x => x)) s); auto.
    - intros s [Hp Hs]. pose proof (Permutation_length Hp) as Hl.
      destruct (Nat.ltb_spec (length s) i) as [H|H]; [lia|].
      assert (length (firstn i s) = i) as Hf by (rewrite firstn_length; lia).
      destruct m; cbn [always fst snd].
      + intros ch. exists (skipn i s). rewrite firstn_skipn. repeat split; auto. now exists ch.
      + exists (skipn i s). rewrite firstn_skipn. repeat split; auto.
  Qed.

  Lemma rc_compact_whenever m (b : list F) i :
    whenever (fun r => compacted m b i (fst r) (snd r)) (rc_compact b i m).
  Proof.
    unfold rc_compact. eapply whenever_bind with (P := fun s => Permutation b s /\ StronglySorted (kle (fun x => x)) s).
    - destruct b as [|x [|y b]]; cbn [sort_by_key].
      + cbn. split; constructor.
      + cbn. split; repeat constructor.
      + destruct (existsb _ _) eqn:E; cbn [whenever]; auto. split; [apply isort_perm|].
        apply isort_sorted. apply Forall_forall. intros a Ha.
        destruct (fisnan a) eqn:En; auto. exfalso.
        assert (existsb (fun a : F => fisnan a) (x :: y :: b) = true) as E'; [|congruence].
        apply existsb_exists. eauto.
    - intros s [Hp Hs].
      destruct (Nat.ltb_spec (length s) i) as [H|H]; [exact I|].
      assert (length (firstn i s) = i) as Hf by (rewrite firstn_length; lia).
      destruct m; cbn [whenever fst snd].
      + intros ch. exists (skipn i s). rewrite firstn_skipn. repeat split; auto. now exists ch.
      + exists (skipn i s). rewrite firstn_skipn. repeat split; auto.
  Qed.

  Section Mode.
    Variables (k bs : nat) (fast : bool) (m : method).

    (** ** a fuel-free description of the executions that return *)
    Definition index_ok (b : list F) (c : N) (i : nat) (c' : N) : Prop :=
      if fast then i = bs / 2 /\ c' = c
      else (trailing_ones c + 1) * k <= length b /\ i = length b - (trailing_ones c + 1) * k /\ c' = (c + 1)%N.

    Lemma compact_index_whenever (b : list F) c :
      whenever (fun r => index_ok b c (fst r) (snd r)) (compact_index k bs fast b c).
    Proof.
      unfold compact_index, index_ok, get_compact_index, get_compact_index_fast, bump.
      destruct fast; [cbn; auto|].
      destruct (Nat.ltb_spec (length b) ((trailing_ones c + 1) * k)) as [H|H]; [exact I|].
      destruct (N.eqb_spec c u32_max) as [E|E]; [exact I|]. cbn [bind whenever fst snd]. auto.
    Qed.

    Lemma fill_S fuel lv items : fill k bs fast m (S fuel) lv items =
      (let '((b, c), up) := ensure lv in
       match items with
       | [] => Ret ((b, c) :: up)
       | _ => if bs <? length b then Panic
              else do lv' <- drain k bs fast m fuel (b ++ firstn (bs - length b) items) c up;
                   fill k bs fast m fuel lv' (skipn (bs - length b) items)
       end).
    Proof. reflexivity. Qed.
    Lemma drain_S fuel (b : list F) c up : drain k bs fast m (S fuel) b c up =
      (if length b <? bs then Ret ((b, c) :: up)
       else do (i, c') <- compact_index k bs fast b c;
            do (b', out) <- rc_compact b i m;
            do up' <- fill k bs fast m fuel up out;
            drain k bs fast m fuel b' c' up').
    Proof. reflexivity. Qed.

    Inductive Fill : list level -> list F -> list level -> Prop :=
    | Fill_done lv : Fill lv [] (fst (ensure lv) :: snd (ensure lv))
    | Fill_more lv b c up items lv1 lv2 :
        ensure lv = ((b, c), up) -> items <> [] -> length b <= bs ->
        Drain (b ++ firstn (bs - length b) items) c up lv1 ->
        Fill lv1 (skipn (bs - length b) items) lv2 -> Fill lv items lv2
    with Drain : list F -> N -> list level -> list level -> Prop :=
    | Drain_done b c up : length b < bs -> Drain b c up ((b, c) :: up)
    | Drain_more b c up i c' lo out up' lv :
        bs <= length b -> index_ok b c i c' -> compacted m b i lo out ->
        Fill up out up' -> Drain lo c' up' lv -> Drain b c up lv.

    Lemma fill_drain_whenever fuel :
      (forall lv items, whenever (Fill lv items) (fill k bs fast m fuel lv items)) /\
      (forall b c up, whenever (Drain b c up) (drain k bs fast m fuel b c up)).
    Proof.
      induction fuel as [|fuel [IHf IHd]]; [split; intros; exact I|]. split.
      - intros lv items. rewrite fill_S. destruct (ensure lv) as [[b c] up] eqn:E.
        destruct items as [|x items].
        { cbn [whenever]. pose proof (Fill_done lv) as H. rewrite E in H. exact H. }
        destruct (Nat.ltb_spec bs (length b)) as [H|H]; [exact I|].
        eapply whenever_bind; [apply IHd|]. intros lv1 H1.
        eapply whenever_mono; [apply IHf|]. intros lv2 H2.
        eapply Fill_more; eauto. discriminate.
      - intros b c up. rewrite drain_S. destruct (Nat.ltb_spec (length b) bs) as [H|H]; [now apply Drain_done|].
        eapply whenever_bind; [apply compact_index_whenever|]. intros [i c'] Hi.
        eapply whenever_bind; [apply rc_compact_whenever|]. intros [lo out] Hc. cbn [fst snd] in *.
        eapply whenever_bind; [apply IHf|]. intros up' Hu.
        eapply whenever_mono; [apply IHd|]. intros lv Hl.
        eapply Drain_more; eauto.
    Qed.

    (** [insert_at_rc] is a batch of one item *)
    Lemma insert_one_fill fuel lv x : 1 <= k -> 2 <= bs ->
      Forall (fun l => length (fst l) < bs) lv ->
      insert_one k bs fast m (S fuel) lv x = fill k bs fast m (S (S (S fuel))) lv [x].
    Proof.
      intros Hk Hb HF. unfold insert_one.
      assert (forall lv' : list level, lv' <> [] -> fill k bs fast m (S (S fuel)) lv' [] = Ret lv') as Hnil.
      { intros [|l lv'] Hne; [congruence|]. rewrite fill_S. cbn [ensure]. destruct l; reflexivity. }
      rewrite (fill_S (S (S fuel))). destruct (ensure lv) as [[b c] up] eqn:E.
      assert (length b < bs) as Hlb.
      { destruct lv as [|l lv]; cbn in E; injection E; intros; subst; [cbn; lia|]. now apply Forall_inv in HF. }
      destruct (Nat.ltb_spec bs (length b)) as [H|H]; [lia|].
      assert (firstn (bs - length b) [x] = [x]) as -> by (apply firstn_all2; cbn; lia).
      assert (skipn (bs - length b) [x] = []) as -> by (apply skipn_all2; cbn; lia).
      rewrite drain_S.
      destruct (Nat.ltb_spec (length (b ++ [x])) bs) as [Hlt|Hge].
      { cbn [bind]. rewrite Hnil; [reflexivity|discriminate]. }
      assert (length (b ++ [x]) = bs) as Hlen by (rewrite app_length in *; cbn in *; lia).
      rewrite bind_assoc.
      assert (whenever (fun r => fst r < bs) (compact_index k bs fast (b ++ [x]) c)) as Hi.
      { eapply whenever_mono; [apply compact_index_whenever|]. intros [i c']. unfold index_ok. cbn [fst snd].
        destruct fast; [intros [-> _]; apply Nat.div_lt; lia|]. nia. }
      revert Hi. generalize (compact_index k bs fast (b ++ [x]) c). intros mi.
      induction mi as [[i c']| | |kk IH]; cbn [bind whenever fst]; intros Hi; try reflexivity.
      2:{ f_equal. apply FunctionalExtensionality.functional_extensionality. intros ch. apply IH. apply Hi. }
      rewrite bind_assoc.
      assert (whenever (fun r => length (fst r) < bs) (rc_compact (b ++ [x]) i m)) as Hr.
      { eapply whenever_mono; [apply rc_compact_whenever|]. intros [lo out] (hi & _ & _ & Hl & _). cbn in *. lia. }
      revert Hr. generalize (rc_compact (b ++ [x]) i m). intros mr.
      induction mr as [[lo out]| | |kk IH]; cbn [bind whenever fst]; intros Hr; try reflexivity.
      2:{ f_equal. apply FunctionalExtensionality.functional_extensionality. intros ch. apply IH. apply Hr. }
      rewrite bind_assoc. apply bind_ext. intros up'.
      rewrite drain_S. destruct (Nat.ltb_spec (length lo) bs) as [_|Hno]; [|lia].
      cbn [bind]. symmetry. apply Hnil. discriminate.
    Qed.

    (** ** termination and absence of panics *)
    Definition small (lv : list level) : Prop := Forall (fun l => length (@fst (list F) N l) < bs) lv.

    (** [fits lv n]: after [n] items were given to the first of the levels [lv], each level has been given no more items
        than the level below it has removed, and each compaction has removed at least [k] items. *)
    Fixpoint fits (lv : list level) (n : nat) : Prop :=
      match lv with
      | [] => n = 0
      | (b, c) :: up => exists r n', length (b : list F) + r = n /\ k * N.to_nat c <= r /\ n' <= r /\ fits up n'
      end.

    (** as long as no level has been given more than [nmax] items, the compaction index does not underflow *)
    Definition safe (nmax : nat) : Prop :=
      forall c, k * N.to_nat c + bs <= nmax -> (trailing_ones c + 1) * k <= bs /\ (c < u32_max)%N.

    (** a predicate on items that excludes NaN and is preserved by compaction *)
    Definition keeps (P : F -> Prop) : Prop :=
      (forall x, P x -> fisnan x = false) /\
      (forall hi out, output_of m hi out -> Forall P hi -> Forall P out).
    Definition all_in (P : F -> Prop) (lv : list level) : Prop := Forall (fun l => Forall P (@fst (list F) N l)) lv.

    Lemma compact_index_always nmax (b : list F) c r : 1 <= k -> 2 <= bs ->
      (fast = false -> safe nmax) -> length b = bs -> k * N.to_nat c <= r -> length b + r <= nmax ->
      always (fun p => index_ok b c (fst p) (snd p) /\ fst p < bs /\ k * N.to_nat (snd p) <= r + (bs - fst p))
             (compact_index k bs fast b c).
    Proof.
      intros Hk Hb Hs Hl Hc Hn. unfold compact_index, index_ok, get_compact_index, get_compact_index_fast, bump.
      destruct fast.
      - cbn [always fst snd]. repeat split; auto; [apply Nat.div_lt; lia|lia].
      - destruct (Hs eq_refl c) as [H1 H2]; [lia|].
        destruct (Nat.ltb_spec (length b) ((trailing_ones c + 1) * k)) as [H|H]; [lia|].
        destruct (N.eqb_spec c u32_max) as [E|E]; [lia|]. cbn [bind always fst snd].
        repeat split; auto; [nia|]. rewrite N2Nat.inj_add. change (N.to_nat 1) with 1. nia.
    Qed.

    Lemma fill_drain_always nmax P fuel : 1 <= k -> 2 <= bs -> (fast = false -> safe nmax) -> keeps P ->
      (forall lv items n, small lv -> all_in P lv -> Forall P items -> fits lv n -> n + length items <= nmax ->
         (held lv + length items) * (2 * bs + 3) + 2 * length items + 3 <= fuel ->
         always (fun lv' => small lv' /\ all_in P lv' /\ fits lv' (n + length items) /\
                            held lv' <= held lv + length items)
                (fill k bs fast m fuel lv items)) /\
      (forall b c up r n', length b <= bs -> Forall P b -> small up -> all_in P up -> fits up n' -> n' <= r ->
         k * N.to_nat c <= r -> length b + r <= nmax ->
         1 <= fuel -> (bs <= length b -> (length b + held up) * (2 * bs + 3) + 2 <= fuel) ->
         always (fun lv' => small lv' /\ all_in P lv' /\ fits lv' (length b + r) /\ held lv' <= length b + held up)
                (drain k bs fast m fuel b c up)).
    Proof.
      intros Hk Hb Hs HP.
      induction fuel as [|fuel [IHf IHd]]; [split; intros; lia|]. split.
      - intros lv items n Hsm Hin Hit Hfit Hn Hfuel. rewrite fill_S.
        assert (exists b c up r n', ensure lv = ((b, c), up) /\ length b < bs /\ Forall P b /\ small up /\ all_in P up /\
                  fits up n' /\ n' <= r /\ k * N.to_nat c <= r /\ length b + r = n /\ held lv = length b + held up)
          as (b & c & up & r & n' & E & Hlb & HPb & Hsu & Hiu & Hfu & Hnr & Hcr & Hbr & Hh).
        { destruct lv as [|[b c] up].
          - exists [], 0%N, [], 0, 0. cbn in Hfit. cbn. repeat split; auto; try constructor; lia.
          - destruct Hfit as (r & n' & H1 & H2 & H3 & H4).
            exists b, c, up, r, n'. cbn [ensure held fold_right fst].
            pose proof (Forall_inv Hsm) as Hs0. pose proof (Forall_inv Hin) as Hi0.
            repeat split; auto; [now apply Forall_inv_tail in Hsm|now apply Forall_inv_tail in Hin]. }
        rewrite E. destruct items as [|x items].
        { cbn [always length] in *. rewrite Nat.add_0_r. split; [now constructor|]. split; [now constructor|].
          split; [exists r, n'; auto|]. rewrite Hh. change (held ((b, c) :: up)) with (length b + held up). lia. }
        destruct (Nat.ltb_spec bs (length b)) as [H|H]; [lia|].
        set (its := x :: items) in *.
        assert (length (firstn (bs - length b) its) + length (skipn (bs - length b) its) = length its) as Hsplit.
        { rewrite <- app_length, firstn_skipn. reflexivity. }
        assert (length (skipn (bs - length b) its) < length its) as Hless.
        { rewrite skipn_length. unfold its. cbn [length]. lia. }
        assert (length (firstn (bs - length b) its) <= bs - length b) as Htake by (rewrite firstn_length; lia).
        assert (Forall P (firstn (bs - length b) its) /\ Forall P (skipn (bs - length b) its)) as [HP1 HP2].
        { rewrite <- Forall_app, firstn_skipn. exact Hit. }
        eapply always_bind.
        + apply IHd with (r := r) (n' := n'); auto.
          * rewrite app_length. lia.
          * apply Forall_app; auto.
          * rewrite app_length. lia.
          * lia.
          * intros _. rewrite app_length.
            enough ((length b + length (firstn (bs - length b) its) + held up) * (2 * bs + 3) <=
                    (held lv + length its) * (2 * bs + 3)) by lia.
            apply Nat.mul_le_mono_r. lia.
        + intros lv1 (A1 & A2 & A3 & A4). rewrite app_length in A3, A4.
          eapply always_mono; [eapply IHf with (n := n + length (firstn (bs - length b) its)); auto|].
          * replace (n + length (firstn (bs - length b) its))
              with (length b + length (firstn (bs - length b) its) + r) by lia. exact A3.
          * lia.
          * enough ((held lv1 + length (skipn (bs - length b) its)) * (2 * bs + 3) <=
                    (held lv + length its) * (2 * bs + 3)) by lia.
            apply Nat.mul_le_mono_r. lia.
          * cbn beta. intros lv2 (B1 & B2 & B3 & B4). repeat split; auto.
            -- replace (n + length its) with (n + length (firstn (bs - length b) its) + length (skipn (bs - length b) its)) by lia.
               exact B3.
            -- lia.
      - intros b c up r n' Hlb HPb Hsu Hiu Hfu Hnr Hcr Hn Hf1 Hfuel. rewrite drain_S.
        destruct (Nat.ltb_spec (length b) bs) as [Hlt|Hge].
        { cbn [always]. split; [now constructor|]. split; [now constructor|]. split; [exists r, n'; auto|].
          change (held ((b, c) :: up)) with (length b + held up). lia. }
        assert (length b = bs) as Hl by lia. specialize (Hfuel Hge).
        eapply always_bind; [eapply compact_index_always with (nmax := nmax); eauto|].
        intros [i c'] (Hi & Hib & Hc'). cbn [fst snd] in *.
        assert (i <= length b) as Hil by lia.
        eapply always_bind; [apply rc_compact_always; auto|].
        { eapply Forall_impl; [|exact HPb]. apply HP. }
        intros [lo out] (hi & Hp & Hso & Hlo & Ho). cbn [fst snd] in *.
        assert (Forall P lo /\ Forall P hi) as [HPl HPh].
        { rewrite <- Forall_app. eapply Permutation_Forall; eauto. }
        pose proof (Permutation_length Hp) as Hlen. rewrite app_length in Hlen.
        pose proof (output_length_le _ _ _ Ho) as Hout.
        eapply always_bind.
        { apply IHf with (n := n'); auto.
          - apply HP with (hi := hi); auto.
          - lia.
          - enough ((held up + length out) * (2 * bs + 3) + (2 * bs + 3) <= (length b + held up) * (2 * bs + 3)) by lia.
            replace ((held up + length out) * (2 * bs + 3) + (2 * bs + 3))
              with ((held up + length out + 1) * (2 * bs + 3)) by lia.
            apply Nat.mul_le_mono_r. lia. }
        intros up' (A1 & A2 & A3 & A4).
        eapply always_mono; [apply IHd with (r := r + length hi) (n' := n' + length out); auto|].
        + lia.
        + lia.
        + replace (r + length hi) with (r + (bs - i)) by lia. exact Hc'.
        + lia.
        + assert (1 * (2 * bs + 3) <= (length b + held up) * (2 * bs + 3)) by (apply Nat.mul_le_mono_r; lia). lia.
        + lia.
        + cbn beta. intros lv (B1 & B2 & B3 & B4). repeat split; auto.
          * replace (length b + r) with (length lo + (r + length hi)) by lia. exact B3.
          * lia.
    Qed.
  End Mode.
End RCP.
