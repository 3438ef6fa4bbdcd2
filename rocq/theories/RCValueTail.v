(** Exponential tails of the value queries of the RC sketches, for all queries at once. *)
From Coq Require Import List Arith ZArith NArith Lia Bool Permutation Sorted Reals Lra.
From Verif Require Import Base Floats Digest Spec FloatFacts History TDigest RCSketch RCProofs RCHist RCRank RCExpect RCTop RCQuery RCObs RCObs2 RCRel RCRelTop RCValue RCExp RCExpTop RCTail.
From Verif Require Import RC2 RC2Sections RC2Proofs RC2Hist RC2Rank RC2Top RC2Value RC2Var.
Set Implicit Arguments.
Local Open Scope R_scope.

Section ValueTail.
  Context {F : Type} {FO : FloatOps F} {FL : FloatLaws F}.
  Notation level := (@level F).

  (** [x], returned for the quantile [q], is off by [d] ranks or more: the rank sought, q times the number of items as computed in
      floating point, is at least [d] above the number of items up to [x], or at least [d] below the number of items before it *)
  Definition misses (items : list F) (d : nat) (x q : F) : bool :=
    match fval (fmul q (fofZ (Z.of_nat (length items)))) with
    | XFin t => rleb (INR (n_le items x) + INR d) t || rleb (t + INR d) (INR (n_lt items x))
    | _ => true
    end.
  Definition quantile (q : F) : Prop := exists r, fval q = XFin r /\ 0 <= r <= 1.

  Lemma off_by (lv : list level) items d v : INR d <= Rabs (INR (lv_rank lv v) - INR (n_le items v)) -> off items d (Z.of_nat (lv_rank lv v)) v = true.
  Proof.
    intros H. unfold off. apply Z.leb_le, le_IZR. rewrite abs_IZR, minus_IZR, <- !INR_IZR_INZ. exact H.
  Qed.

  (* ------------------------------------------------------------------ *)
  (** * RCSketch *)
  Lemma values_always {S} (m : M S) (f : S -> F -> M F) (P : S -> F -> F -> Prop) qs : always (fun _ => True) m ->
    (forall q, In q qs -> always (fun s => exists x, f s q = Ret x /\ P s q x) m) ->
    always (fun s => exists xs, mapM (f s) qs = Ret xs /\ Forall2 (P s) qs xs) m.
  Proof.
    intros HT. induction qs as [|q qs IH]; intros H.
    - eapply always_mono; [exact HT|]. intros s _. exists []. split; [reflexivity|constructor].
    - eapply always_mono; [exact (@always_whenever_and _ _ _ _ (H q (or_introl eq_refl)) (@always_whenever _ _ _ (IH (fun q' Hq' => H q' (or_intror Hq')))))|].
      cbn beta. intros s [(x & E & Hx) (xs & Es & Hxs)]. exists (x :: xs). cbn [mapM]. rewrite E, Es. split; [reflexivity|constructor; assumption].
  Qed.
  Lemma exists_pair (P : F -> F -> Prop) (p : F -> F -> bool) qs xs : Forall2 P qs xs ->
    existsb (fun c => p (fst c) (snd c)) (combine xs qs) = true -> exists q x, P q x /\ p x q = true.
  Proof.
    induction 1 as [|q x qs xs H _ IH]; cbn [combine existsb fst snd]; [discriminate|]. intros E. apply orb_true_iff in E as [E|E]; eauto.
  Qed.

  Lemma cut_off (lv : list level) items d t x : no_nan items -> In x items -> (1 <= d)%nat -> cuts lv t x ->
    rleb (INR (n_le items x) + INR d) t || rleb (t + INR d) (INR (n_lt items x)) = true -> 0 <= t ->
    exists v, In v items /\ off items d (Z.of_nat (lv_rank lv v)) v = true.
  Proof.
    intros Hn Hx Hd [C1 C2] H H0. assert (fisnan x = false) as Hx' by (unfold no_nan in Hn; rewrite Forall_forall in Hn; auto).
    assert (1 <= INR d) as Hd' by (apply (le_INR 1), Hd). apply orb_true_iff in H as [H|H]; apply rleb_true in H.
    - exists x. split; [exact Hx|]. apply off_by. specialize (C1 x (fle_refl x Hx')). rewrite Rabs_right; lra.
    - assert (1 <= n_lt items x)%nat as H1 by (apply INR_le; change (INR 1) with 1; lra).
      destruct (@pred_item F FO FL items x Hn H1) as (v & V1 & V2 & V3). exists v. split; [exact V1|]. apply off_by. specialize (C2 v V2).
      rewrite V3, Rabs_left1; lra.
  Qed.

  (** the answers to a list of value queries *)
  Definition values_after (lg : F -> F) n k ops (qs : list F) : M (list F) := do s <- rc_run lg n k ops; mapM (fun q => rc_est_value s q) qs.

  Theorem values_chernoff lg n k (ops : list (rop F)) qs bs d : proper lg n k ops -> default_mode ops -> few_levels31 n k ops -> Nat.even k = true ->
    calc_buffer_size lg n k = Ret bs -> ritems_of ops <> [] -> (Z.of_nat (length (ritems_of ops)) <= fint)%Z -> Forall quantile qs -> (1 <= d)%nat ->
    prob (fun xs => existsb (fun p => misses (ritems_of ops) d (fst p) (snd p)) (combine xs qs)) (values_after lg n k ops qs)
    <= 2 * INR (length (ritems_of ops)) * exp (- (INR d ^ 2 * (INR k * INR bs) / (4 * INR (length (ritems_of ops)) ^ 2))).
  Proof.
    intros Hp Hm Hf31 He Hc Hne Hi Hqs Hd. set (its := ritems_of ops).
    pose proof (few_31_64 Hm He Hf31) as Hf64.
    eapply Rle_trans; [|exact (@ranks_state F FO FL lg n k ops its bs d Hp Hm Hf64 He Hc Hd)].
    assert (no_nan its) as Hn by apply Hp. rewrite Forall_forall in Hqs.
    assert (always (fun s => exists xs, mapM (fun q => rc_est_value s q) qs = Ret xs /\
              Forall2 (fun q x => exists t, fval (fmul q (fofZ (Z.of_nat (length its)))) = XFin t /\ 0 <= t /\ In x its /\ cuts (rc_levels s) t x) qs xs) (rc_run lg n k ops)) as HA.
    { apply (@values_always _ (rc_run lg n k ops) (fun s q => rc_est_value s q) (fun s q x => exists t, fval (fmul q (fofZ (Z.of_nat (length its)))) = XFin t /\ 0 <= t /\ In x its /\ cuts (rc_levels s) t x)).
      - eapply always_mono; [exact (ranks_levels Hp Hm Hf64)|]. auto.
      - intros q Hq. destruct (Hqs q Hq) as (r & Er & Hr).
        destruct (@rank_sought F FO FL ops q r Hi Er Hr) as (t & Ht & H01).
        eapply always_mono; [exact (@run_cuts F FO FL lg n k ops q Hp Hm He Hf31 Hne Hi t Ht H01)|]. cbn beta. intros s (x & E & Hx & C). exists x. split; [exact E|].
        exists t. split; [exact Ht|]. split; [apply H01|]. split; [exact Hx|exact C]. }
    unfold prob, values_after. rewrite expect_bind. eapply expect_le_always; [exact HA|]. cbn beta. intros s (xs & E & H). rewrite E. cbn [expect].
    destruct (existsb (fun p => misses its d (fst p) (snd p)) (combine xs qs)) eqn:X; [|destruct (existsb _ its); lra].
    destruct (@exists_pair _ (misses its d) _ _ H X) as (q & x & (t & Ht & H0 & Hx & C) & HM). unfold misses in HM. rewrite Ht in HM.
    destruct (@cut_off (rc_levels s) its d t x Hn Hx Hd C HM H0) as (v & V1 & V2).
    assert (existsb (fun v => off (ritems_of ops) d (Z.of_nat (lv_rank (rc_levels s) v)) v) its = true) as -> by (apply existsb_exists; eauto). lra.
  Qed.

  (* ------------------------------------------------------------------ *)
  (** * RCSketch2: the items it holds need not weigh as much as those inserted, so a value may be off twice as much *)
  Lemma spec_off (lv : list level) items d t x : no_nan items -> no_nan (lv_items lv) -> (forall y, In y (lv_items lv) -> In y items) -> In x items -> (1 <= d)%nat -> 0 <= t <= INR (length items) ->
    value_spec lv (XFin t) x -> rleb (INR (n_le items x) + INR (2 * d)) t || rleb (t + INR (2 * d)) (INR (n_lt items x)) = true ->
    exists v, In v items /\ off items d (Z.of_nat (lv_rank lv v)) v = true.
  Proof.
    intros Hn Hn' Hin Hx Hd Ht Hs H. assert (fisnan x = false) as Hx' by (unfold no_nan in Hn; rewrite Forall_forall in Hn; auto).
    assert (1 <= INR d) as Hd' by (apply (le_INR 1), Hd). rewrite mult_INR in H. change (INR 2) with 2 in H. apply orb_true_iff in H as [H|H]; apply rleb_true in H.
    - pose proof (@value_above F FO FL lv t x x Hs (fle_refl x Hx')) as HA. unfold Rmin in HA. destruct (Rle_dec t (INR (lv_weight lv))).
      + exists x. split; [exact Hx|]. apply off_by. rewrite Rabs_right; lra.
      + destruct (Rle_dec (INR d) (INR (lv_rank lv x) - INR (n_le items x))) as [L|L].
        * exists x. split; [exact Hx|]. apply off_by. rewrite Rabs_right; lra.
        * (* the largest item *)
          destruct (@argmax F FO FL items (fun _ => true) Hn) as (w & W1 & _ & W3); [apply existsb_exists; eauto|].
          exists w. split; [exact W1|]. apply off_by.
          assert (n_le items w = length items) as E.
          { apply all_le_rank. intros y Hy. now apply W3. }
          assert (lv_rank lv w = lv_weight lv) as E2 by (apply lv_rank_all, all_in_items, Forall_forall; intros y Hy; apply W3; auto).
          rewrite E, E2, Rabs_left1; lra.
    - assert (1 <= n_lt items x)%nat as H1 by (apply INR_le; change (INR 1) with 1; lra).
      destruct (@pred_item F FO FL items x Hn H1) as (v & V1 & V2 & V3). exists v. split; [exact V1|]. apply off_by.
      pose proof (@value_below F FO FL lv t x v Hn' Hs (proj1 Ht) V2). rewrite V3, Rabs_left1; lra.
  Qed.

  Definition values_after2 extra k ops (qs : list F) : M (list F) := do s <- rc2_run extra k ops; mapM (fun q => rc2_est_value s q) qs.

  Theorem values2_chernoff extra k (ops : list (rop F)) qs o h d : proper2 k ops -> default_mode ops -> no_nan (ritems_of ops) -> fewer k (length (ritems_of ops)) -> ritems_of ops <> [] ->
    Nat.odd o = true -> (o <= min_sec k + 1)%nat -> ((o + 1) ^ h * length (ritems_of ops) < 6 * N.to_nat k * (2 * o) ^ h)%nat ->
    INR (length (ritems_of ops)) + err2 k o h (length (ritems_of ops)) <= IZR fint -> Forall quantile qs -> (1 <= d)%nat ->
    prob (fun xs => existsb (fun p => misses (ritems_of ops) (2 * d) (fst p) (snd p)) (combine xs qs)) (values_after2 extra k ops qs)
    <= 2 * INR (length (ritems_of ops)) * exp (- (INR d ^ 2 / (2 * var2 k o h (length (ritems_of ops))))).
  Proof.
    intros Hp Hm Hn Hf Hne Ho1 Ho2 Hh Hi Hqs Hd. set (its := ritems_of ops). pose proof (few_fewer ops Hf) as Hf2.
    eapply Rle_trans; [|exact (@ranks2_state F FO FL extra k ops its o h d Hp Hf2 Hm Hn Ho1 Ho2 Hh Hd)]. rewrite Forall_forall in Hqs.
    assert (always (fun s => exists xs, mapM (fun q => rc2_est_value s q) qs = Ret xs /\
              Forall2 (fun q x => exists t, fval (fmul q (fofZ (Z.of_nat (length its)))) = XFin t /\ 0 <= t <= INR (length its) /\ In x its /\
                no_nan (held_items s) /\ (forall y, In y (held_items s) -> In y its) /\ value_spec (plain (r2_levels s)) (XFin t) x) qs xs) (rc2_run extra k ops)) as HA.
    { apply (@values_always _ (rc2_run extra k ops) (fun s q => rc2_est_value s q) (fun s q x => exists t, fval (fmul q (fofZ (Z.of_nat (length its)))) = XFin t /\ 0 <= t <= INR (length its) /\ In x its /\
                no_nan (held_items s) /\ (forall y, In y (held_items s) -> In y its) /\ value_spec (plain (r2_levels s)) (XFin t) x)).
      - eapply always_mono; [exact (@ranks2_levels F FO FL extra k ops o Hp Hf2 Hm Hn Ho1 Ho2)|]. auto.
      - intros q Hq. destruct (Hqs q Hq) as (r & Er & Hr).
        destruct (@value2_state F FO FL extra k ops q r o h Hp Hm Hn Hf Hne Ho1 Ho2 Hh Hi Er Hr) as (t & Ht & H01 & HA).
        eapply always_mono; [exact HA|]. cbn beta. intros s (_ & H1 & H2 & _ & x & E & Hx & Hs). exists x. split; [exact E|]. exists t. repeat (split; [assumption|]). exact Hs. }
    unfold prob, values_after2. rewrite expect_bind. eapply expect_le_always; [exact HA|]. cbn beta. intros s (xs & E & H). rewrite E. cbn [expect].
    destruct (existsb (fun p => misses its (2 * d) (fst p) (snd p)) (combine xs qs)) eqn:X; [|destruct (existsb _ its); lra].
    destruct (@exists_pair _ (misses its (2 * d)) _ _ H X) as (q & x & (t & Ht & H01 & Hx & H1 & H2 & Hs) & HM). unfold misses in HM. rewrite Ht in HM.
    destruct (@spec_off (plain (r2_levels s)) its d t x Hn H1 H2 Hx Hd H01 Hs HM) as (v & V1 & V2).
    assert (existsb (fun v => off (ritems_of ops) d (Z.of_nat (lv_rank (plain (r2_levels s)) v)) v) its = true) as -> by (apply existsb_exists; eauto). lra.
  Qed.
End ValueTail.
