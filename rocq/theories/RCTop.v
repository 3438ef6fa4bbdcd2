(** RCSketch: whole sequences of calls starting from [new]. *)
From Coq Require Import List Arith ZArith NArith Lia Bool Permutation Sorted Reals Lra.
From Verif Require Import Base Floats Digest Spec FloatFacts History TDigest RCSketch RCProofs RCHist RCRank RCExpect.
Set Implicit Arguments.
Local Open Scope nat_scope.

(** number of one bits *)
Fixpoint pos_ones (p : positive) : nat :=
  match p with xI p' => S (pos_ones p') | xO p' => pos_ones p' | xH => 1 end.
Definition ones (c : N) : nat := match c with N0 => 0 | Npos p => pos_ones p end.
Lemma ones_step c : ones (c + 1) + trailing_ones c = ones c + 1.
Proof.
  destruct c as [|p]; [reflexivity|]. rewrite N.add_1_r. cbn [N.succ ones trailing_ones].
  induction p as [p IH|p IH|]; cbn [Pos.succ pos_ones pos_trailing_ones]; lia.
Qed.
Lemma trailing_ones_pow t c : (c + 1 = 2 ^ N.of_nat t)%N -> trailing_ones c = t.
Proof.
  revert c. induction t as [|t IH]; intros c H.
  - assert (c = 0)%N as -> by (cbn in H; lia). reflexivity.
  - rewrite Nat2N.inj_succ, N.pow_succ_r' in H.
    destruct c as [|[p|p|]]; cbn [trailing_ones pos_trailing_ones]; try lia.
    + f_equal. apply (IH (Npos p)). lia.
    + f_equal. apply (IH 0%N). lia.
Qed.

Section RCT.
  Context {F : Type} {FO : FloatOps F} {FL : FloatLaws F}.
  Notation level := (@level F).

  (** what is assumed of the construction parameters: [x.log2().ceil()] is right for the one value it is applied to, and
      the buffer size is an exactly representable [usize] *)
  Definition rc_params (lg : F -> F) (n k : nat) : Prop :=
    1 <= k /\ log2_ok lg k (n / k) /\ (Z.of_nat (2 * k * Nat.log2_up (n / k)) <= fint)%Z /\
    (Z.of_nat (2 * k) <= fint)%Z /\ (Z.of_nat (2 * k * Nat.log2_up (n / k)) < 2 ^ 64)%Z.

  (** [RCSketch::new(n, k)] followed by insertions *)
  Definition rc_run (lg : F -> F) (n k : nat) (ops : list (rop F)) : M (rc F) :=
    do s <- rc_new lg n k; rexec s ops.

  Definition rc_fresh (n k : nat) : rc F := mkRC [] n k (spec_size n k) 0%Z.

  Lemma rc_new_val lg n k : rc_params lg n k -> rc_new lg n k = Ret (rc_fresh n k).
  Proof.
    intros (H1 & H2 & H3 & H4 & H5). unfold rc_new. rewrite calc_buffer_size_val by assumption. reflexivity.
  Qed.
  Lemma rc_run_val lg n k ops : rc_params lg n k -> rc_run lg n k ops = rexec (rc_fresh n k) ops.
  Proof. intros H. unfold rc_run. rewrite rc_new_val by assumption. reflexivity. Qed.

  Definition default_method (ops : list (rop F)) : Prop := Forall (fun o => rmeth o = Default) ops.
  Definition default_mode (ops : list (rop F)) : Prop := Forall (fun o => rfast o = false /\ rmeth o = Default) ops.
  Definition fast_mode (ops : list (rop F)) : Prop := Forall (fun o => rfast o = true) ops.

  Lemma default_mode_method ops : default_mode ops -> default_method ops.
  Proof. apply Forall_impl. tauto. Qed.

  (** within the declared length, or in fast mode, nothing panics or diverges *)
  Definition in_range (n k : nat) (ops : list (rop F)) : Prop :=
    fast_mode ops \/ (length (ritems_of ops) <= n /\ (N.of_nat (n / k) <= u32_max)%N).

  Lemma rc_fresh_always n k ops (P : F -> Prop) : 1 <= k -> in_range n k ops ->
    Forall (fun o => keeps (rmeth o) P) ops -> Forall P (ritems_of ops) ->
    always (fun s => small (spec_size n k) (rc_levels s) /\ all_in P (rc_levels s) /\
                     rc_count s = Z.of_nat (length (ritems_of ops))) (rexec (rc_fresh n k) ops).
  Proof.
    intros Hk Hr HP Hit. destruct (spec_size_ge n Hk) as [Hb _].
    assert (exists nmax, (fast_mode ops \/ safe k (spec_size n k) nmax) /\ length (ritems_of ops) <= nmax) as (nmax & H1 & H2).
    { destruct Hr as [Hf|[Hn Hu]].
      - exists (length (ritems_of ops)). split; [now left|lia].
      - exists n. split; [right; now apply spec_size_safe|exact Hn]. }
    eapply always_mono.
    - apply (@rexec_always F FO FL k (spec_size n k) Hk Hb nmax P ops (rc_fresh n k) 0); auto; try constructor.
    - cbn beta. intros s (_ & _ & A & B & _ & C). auto.
  Qed.

  Lemma rc_fresh_ok n k ops : 1 <= k -> in_range n k ops -> default_method ops -> no_nan (ritems_of ops) ->
    always (fun s => small (spec_size n k) (rc_levels s) /\ rc_count s = Z.of_nat (length (ritems_of ops)))
           (rexec (rc_fresh n k) ops).
  Proof.
    intros Hk Hr Hm Hit. eapply always_mono.
    - apply rc_fresh_always with (P := fun x => fisnan x = false); auto.
      eapply Forall_impl; [|exact Hm]. intros o ->. apply keeps_default.
    - cbn beta. tauto.
  Qed.

  (** invariants from the empty sketch *)
  Lemma rc_fresh_whenever n k ops (mode : bool -> method -> Prop) (I : list level -> list F -> Prop) : 1 <= k ->
    (forall fast m lv its chunk lv', mode fast m -> small (spec_size n k) lv -> I lv its ->
       Fill k (spec_size n k) fast m lv chunk lv' -> I lv' (its ++ chunk)) ->
    Forall (fun o => mode (rfast o) (rmeth o)) ops -> I [] [] ->
    whenever (fun s => I (rc_levels s) (ritems_of ops)) (rexec (rc_fresh n k) ops).
  Proof.
    intros Hk HI Hm H0. destruct (spec_size_ge n Hk) as [Hb _].
    eapply whenever_mono.
    - apply (@rexec_whenever F FO FL k (spec_size n k) Hk Hb mode I HI ops (rc_fresh n k) []); auto. constructor.
    - cbn beta. tauto.
  Qed.

  (** *** weight *)
  Lemma spec_size_even n k : Nat.even k = true -> Nat.even (spec_size n k - spec_size n k / 2) = true.
  Proof.
    intros H. apply Nat.even_spec in H as [d ->].
    assert (exists e, spec_size n (2 * d) = 2 * (2 * e)) as [e ->].
    { unfold spec_size. set (L := Nat.log2_up _). destruct (Nat.max_spec (2 * (2 * d) * L) (2 * (2 * d))) as [[_ ->]|[_ ->]].
      - exists d. lia.
      - exists (d * L). lia. }
    rewrite (Nat.mul_comm 2 (2 * e)), Nat.div_mul by lia.
    replace (2 * e * 2 - 2 * e) with (2 * e) by lia. rewrite Nat.even_mul. reflexivity.
  Qed.

  Lemma rc_halves n k ops : 1 <= k -> Nat.even k = true ->
    whenever (fun s => halves k (spec_size n k) (rc_levels s) (length (ritems_of ops))) (rexec (rc_fresh n k) ops).
  Proof.
    intros Hk He. destruct (spec_size_ge n Hk) as [Hb _].
    apply rc_fresh_whenever with (mode := fun _ _ => True) (I := fun lv its => halves k (spec_size n k) lv (length its)); auto.
    - intros fast m lv its chunk lv' _ Hs HI HF. rewrite app_length.
      eapply (proj1 (fill_halves Hk Hb m (conj He (fun _ => spec_size_even n k He)))); eauto.
    - now apply Forall_forall.
    - reflexivity.
  Qed.

  Lemma rc_tight n k ops : 1 <= k -> Forall (fun o => rfast o = false) ops ->
    whenever (fun s => tight (spec_size n k) (rc_levels s) (length (ritems_of ops))) (rexec (rc_fresh n k) ops).
  Proof.
    intros Hk Hm. destruct (spec_size_ge n Hk) as [Hb _].
    apply rc_fresh_whenever with (mode := fun f _ => f = false) (I := fun lv its => tight (spec_size n k) lv (length its)); auto.
    - intros fast m lv its chunk lv' -> Hs HI HF. rewrite app_length.
      eapply (proj1 (fill_tight Hk Hb m)); eauto.
    - reflexivity.
  Qed.

  (** *** rank error *)
  Lemma rc_rank_error n k ops v : 1 <= k -> default_mode ops ->
    whenever (fun s => (Z.abs (Z.of_nat (lv_rank (rc_levels s) v) - Z.of_nat (n_le (ritems_of ops) v))
                        <= Z.of_nat (lv_compactions (rc_levels s)))%Z) (rexec (rc_fresh n k) ops).
  Proof.
    intros Hk Hm. destruct (spec_size_ge n Hk) as [Hb _].
    apply rc_fresh_whenever with (mode := fun f m => f = false /\ m = Default)
      (I := fun lv its => (Z.abs (Z.of_nat (lv_rank lv v) - Z.of_nat (n_le its v)) <= Z.of_nat (lv_compactions lv))%Z); auto.
    - intros fast m lv its chunk lv' [-> ->] Hs HI HF. rewrite n_le_app.
      pose proof (proj1 (fill_rank Hk Hb v) _ _ _ HF). lia.
    - cbn. lia.
  Qed.

  (** *** the smallest items *)
  Lemma rc_guard n k ops : 1 <= k -> (fast_mode ops \/ length (ritems_of ops) <= n) -> default_method ops ->
    whenever (fun s => guard k (spec_size n k / 2) (rc_levels s) (ritems_of ops)) (rexec (rc_fresh n k) ops).
  Proof.
    intros Hk Hr Hm. destruct (spec_size_ge n Hk) as [Hb _].
    set (nmax := Nat.max n (length (ritems_of ops))).
    (* the invariant also remembers that the items are a prefix of the whole input *)
    assert (forall pre s o_s, Forall (fun o => rmeth o = Default) o_s ->
              (fast_mode o_s \/ length pre + length (ritems_of o_s) <= n) ->
              rc_k s = k -> rc_size s = spec_size n k -> small (spec_size n k) (rc_levels s) ->
              guard k (spec_size n k / 2) (rc_levels s) pre ->
              whenever (fun s' => guard k (spec_size n k / 2) (rc_levels s') (pre ++ ritems_of o_s)) (rexec s o_s)) as H.
    { intros pre s o_s Hmo Hf Ek Eb Hsm HG. destruct Hf as [Hf|Hn].
      - eapply whenever_mono;
          [apply (@rexec_whenever F FO FL k (spec_size n k) Hk Hb (fun f m => f = true /\ m = Default)
                    (fun lv its => guard k (spec_size n k / 2) lv its)) with (its := pre); auto|].
        + intros fast m lv its chunk lv' [-> ->] _ HI HF.
          eapply (proj1 (@fill_guard F FO FL k (spec_size n k) (spec_size n k / 2) Hk Hb true (length its + length chunk)
                           ltac:(discriminate) (fun _ => le_n _))); eauto.
        + rewrite Forall_forall in *. unfold fast_mode in Hf. rewrite Forall_forall in Hf. auto.
        + cbn beta. tauto.
      - revert pre s Hn Ek Eb Hsm HG. induction o_s as [|o o_s IH]; intros pre s Hn Ek Eb Hsm HG.
        + unfold ritems_of. cbn. now rewrite app_nil_r.
        + unfold rexec in *. cbn [foldM]. unfold ritems_of in *. cbn [map concat] in *. rewrite app_length in Hn.
          eapply whenever_bind; [apply (@rstep_whenever F FO FL k (spec_size n k) Hk Hb s o); auto|].
          intros s1 (A1 & A2 & A3 & A4 & A5). rewrite app_assoc.
          apply IH; auto; [now apply Forall_inv_tail in Hmo|rewrite app_length; lia|].
          apply Forall_inv in Hmo. rewrite Hmo in A4.
          assert (length pre + length (ritems o) <= n) as Hn1 by lia. clear Hn.
          revert HG Hn1. generalize pre. clear -A4 FL Hk Hb.
          induction A4 as [lv|lv chunk lv1 items lv2 H1 H2 IH]; intros pre HG Hn.
          * now rewrite app_nil_r.
          * rewrite app_length in Hn. rewrite app_assoc. apply IH; [|rewrite app_length; lia].
            eapply (proj1 (@fill_guard F FO FL k (spec_size n k) (spec_size n k / 2) Hk Hb _ n _ _)); eauto; lia.
            Unshelve.
            -- intros _ c Hc. destruct (@spec_size_section n k c Hk Hc) as [E _].
               pose proof (Nat.mul_div_le (spec_size n k) 2 ltac:(lia)).
               assert ((trailing_ones c + 1) * k <= spec_size n k / 2).
               { apply Nat.div_le_lower_bound; lia. }
               lia.
            -- intros _. apply le_n. }
    apply (H [] (rc_fresh n k) ops); auto; cbn; try constructor.
  Qed.

  (** *** expectation and variance *)
  Lemma rc_expect n k ops v : 1 <= k -> in_range n k ops -> default_method ops -> no_nan (ritems_of ops) ->
    expect (fun s => INR (lv_rank (rc_levels s) v)) (rexec (rc_fresh n k) ops) = INR (n_le (ritems_of ops) v).
  Proof.
    intros Hk Hr Hm Hn. destruct (spec_size_ge n Hk) as [Hb _].
    rewrite (@rexec_expect F FO FL k (spec_size n k) v Hk Hb ops (rc_fresh n k)); auto; cbn; try lra; try constructor.
    eapply always_mono; [apply rc_fresh_ok; eauto|auto].
  Qed.

  Lemma rc_square n k ops v : 1 <= k -> in_range n k ops -> default_mode ops -> no_nan (ritems_of ops) ->
    (expect (fun s => (INR (lv_rank (rc_levels s) v) - INR (n_le (ritems_of ops) v)) ^ 2) (rexec (rc_fresh n k) ops)
     <= expect (fun s => INR (lv_compactions2 (rc_levels s))) (rexec (rc_fresh n k) ops))%R.
  Proof.
    intros Hk Hr Hm Hn. destruct (spec_size_ge n Hk) as [Hb _].
    pose proof (@rexec_square F FO FL k (spec_size n k) v Hk Hb ops (rc_fresh n k) (- INR (n_le (ritems_of ops) v))) as H.
    specialize (H Hm eq_refl eq_refl ltac:(constructor)).
    specialize (H ltac:(eapply always_mono; [apply rc_fresh_ok; eauto using default_mode_method|auto])).
    cbn [rc_levels rc_fresh lv_rank lv_compactions2 INR] in H.
    unfold Rminus at 1 in H. rewrite expect_plus in H.
    assert (expect (fun s => - INR (lv_compactions2 (rc_levels s)))%R (rexec (rc_fresh n k) ops)
            = (- expect (fun s => INR (lv_compactions2 (rc_levels s))) (rexec (rc_fresh n k) ops))%R) as E.
    { replace (- expect (fun s => INR (lv_compactions2 (rc_levels s))) (rexec (rc_fresh n k) ops))%R
        with (-1 * expect (fun s => INR (lv_compactions2 (rc_levels s))) (rexec (rc_fresh n k) ops))%R by ring.
      rewrite <- expect_scal. f_equal. apply FunctionalExtensionality.functional_extensionality. intros s. lra. }
    rewrite E in H. unfold Rminus.
    replace (0 + (INR (n_le (ritems_of ops) v) + - INR (n_le (ritems_of ops) v)))%R with 0%R in H by ring.
    lra.
  Qed.

  (** *** never beyond the counters' range *)
  (** bottom level, default mode: [c] compactions have removed exactly k * (2c - ones c) items *)
  Definition bottom (k bs : nat) (lv : list level) (n : nat) : Prop :=
    match lv with
    | [] => n = 0
    | (b, c) :: _ => exists r, length b + r = n /\ r + k * ones c = 2 * k * N.to_nat c /\ (c < 2 ^ N.of_nat (bs / k))%N
    end.

  Lemma fill_bottom k bs m : 1 <= k ->
    (forall lv (items : list F) lv', Fill k bs false m lv items lv' ->
       forall n, bottom k bs lv n -> bottom k bs lv' (n + length items)) /\
    (forall (b : list F) c up lv', Drain k bs false m b c up lv' -> length b <= bs ->
       forall r, r + k * ones c = 2 * k * N.to_nat c -> (c < 2 ^ N.of_nat (bs / k))%N -> bottom k bs lv' (length b + r)).
  Proof.
    intros Hk. apply fill_drain_ind.
    - intros [|[b c] up] n H; cbn [ensure fst snd length]; rewrite Nat.add_0_r.
      + cbn in H. subst. exists 0. cbn [length ones N.to_nat]. repeat split; auto; try lia.
      + exact H.
    - intros lv b c up items lv1 lv2 E Hne Hl _ IHd _ IHf n Hn.
      assert (exists r, length b + r = n /\ r + k * ones c = 2 * k * N.to_nat c /\ (c < 2 ^ N.of_nat (bs / k))%N)
        as (r & H1 & H2 & H3).
      { destruct lv as [|[b0 c0] up0]; cbn [ensure] in E; injection E; intros; subst.
        - cbn in Hn. subst. exists 0. cbn [length ones N.to_nat]. repeat split; auto; try lia.
        - exact Hn. }
      assert (length (firstn (bs - length b) items) + length (skipn (bs - length b) items) = length items) as Hsplit.
      { rewrite <- app_length, firstn_skipn. reflexivity. }
      assert (length (firstn (bs - length b) items) <= bs - length b) as Htake by (rewrite firstn_length; lia).
      rewrite app_length in IHd. specialize (IHd ltac:(lia) r H2 H3). apply IHf in IHd.
      replace (n + length items) with (length b + length (firstn (bs - length b) items) + r +
          length (skipn (bs - length b) items)) by lia. exact IHd.
    - intros b c up Hl _ r H1 H2. exists r. auto.
    - intros b c up i c' lo out up' lv Hl Hi (hi & Hp & Hs & Hlo & Ho) HF IHf _ IHd Hlb r H1 H2.
      pose proof (Permutation_length Hp) as Hlen. rewrite app_length in Hlen.
      destruct Hi as (Hi1 & Hi2 & ->).
      assert (length hi = (trailing_ones c + 1) * k) as Hhi by lia.
      replace (length b + r) with (length lo + (r + length hi)) by lia.
      apply IHd.
      + lia.
      + pose proof (ones_step c) as Hst. rewrite N2Nat.inj_add. change (N.to_nat 1) with 1. rewrite Hhi.
        assert (k * ones (c + 1) + k * trailing_ones c = k * ones c + k) by (rewrite <- !Nat.mul_add_distr_l, Hst; lia). lia.
      + destruct (N.eq_dec (c + 1) (2 ^ N.of_nat (bs / k))) as [E|E]; [|lia].
        apply trailing_ones_pow in E. rewrite E in Hi1.
        pose proof (Nat.mul_succ_div_gt bs k ltac:(lia)). nia.
  Qed.

  Lemma rc_beyond n k ops : 1 <= k -> Forall (fun o => rfast o = false) ops ->
    spec_size n k + k * 2 ^ (spec_size n k / k + 1) <= length (ritems_of ops) ->
    whenever (fun _ => False) (rexec (rc_fresh n k) ops).
  Proof.
    intros Hk Hm Hn. destruct (spec_size_ge n Hk) as [Hb _].
    eapply whenever_mono.
    - apply (@rexec_whenever F FO FL k (spec_size n k) Hk Hb (fun f _ => f = false)
               (fun lv its => bottom k (spec_size n k) lv (length its))) with (its := []); auto.
      + intros fast m lv its chunk lv' -> _ HI HF. rewrite app_length.
        eapply (proj1 (@fill_bottom k (spec_size n k) m Hk)); eauto.
      + constructor.
      + reflexivity.
    - cbn [app]. intros s (_ & _ & Hs & HB & _).
      destruct (rc_levels s) as [|[b c] up]; cbn [bottom] in HB.
      + rewrite HB in Hn. lia.
      + destruct HB as (r & H1 & H2 & H3). apply Forall_inv in Hs. cbn [fst] in Hs.
        assert (N.to_nat c < 2 ^ (spec_size n k / k)) as Hc.
        { replace (2 ^ (spec_size n k / k)) with (N.to_nat (2 ^ N.of_nat (spec_size n k / k))); [lia|].
          rewrite N2Nat.inj_pow, Nat2N.id. reflexivity. }
        rewrite Nat.add_1_r, Nat.pow_succ_r' in Hn. nia.
  Qed.

  (** *** averaging *)
  Lemma averages_weight k bs fast :
    (forall lv (items : list F) lv', Fill k bs fast AverageNeighbour lv items lv' ->
       lv_weight lv' <= lv_weight lv + length items) /\
    (forall (b : list F) c up lv', Drain k bs fast AverageNeighbour b c up lv' -> lv_weight lv' <= length b + 2 * lv_weight up).
  Proof.
    apply fill_drain_ind.
    - intros [|[b c] up]; cbn [ensure fst snd lv_weight length]; lia.
    - intros lv b c up items lv1 lv2 E Hne Hl _ IHd _ IHf.
      assert (length (firstn (bs - length b) items) + length (skipn (bs - length b) items) = length items) as Hsplit.
      { rewrite <- app_length, firstn_skipn. reflexivity. }
      rewrite app_length in IHd.
      destruct lv as [|[b0 c0] up0]; cbn [ensure] in E; injection E; intros; subst; cbn [lv_weight length] in *; lia.
    - intros b c up Hl. cbn [lv_weight]. lia.
    - intros b c up i c' lo out up' lv Hl Hi (hi & Hp & Hs & Hlo & Ho) HF IHf _ IHd.
      pose proof (Permutation_length Hp) as Hlen. rewrite app_length in Hlen.
      cbn [output_of] in Ho. subst out. pose proof (averages_length hi) as [H _]. lia.
  Qed.

  (** values between two bounds whose doubles are exact stay there *)
  Definition within (a b : R) (x : F) : Prop := exists r, fval x = XFin r /\ (a <= r <= b)%R.
  Lemma keeps_within m a b : fexact a -> fexact b -> fexact (2 * a) -> fexact (2 * b) -> keeps m (within a b).
  Proof.
    intros Ha Hb Ha2 Hb2. split.
    - intros x (r & E & _). apply fisnan_false. congruence.
    - intros hi out Ho HF. destruct m.
      + destruct Ho as [ch ->]. apply Forall_forall. intros x Hx. apply every_other_In in Hx.
        rewrite Forall_forall in HF. auto.
      + cbn in Ho. subst out.
        assert (forall n hi, length hi <= n -> Forall (within a b) hi -> Forall (within a b) (averages hi)) as H.
        { induction n as [|n IH]; intros [|x [|y l]] Hl Hh; cbn [averages]; try constructor; cbn [length] in Hl; try lia.
          - apply Forall_inv in Hh as Hx. apply Forall_inv_tail in Hh as Hh'. apply Forall_inv in Hh' as Hy.
            destruct Hx as (r1 & E1 & H1). destruct Hy as (r2 & E2 & H2).
            assert (within (2 * a) (2 * b) (fadd x y)) as (r & E & Hr).
            { unfold within. rewrite (fadd_fin E1 E2). destruct (@frnd_range _ _ _ (2 * a) (2 * b) (r1 + r2) Ha2 Hb2) as (r & Er & Hr); [lra|].
              exists r. auto. }
            unfold within. change (fofZ 2) with (f2 (F := F)). rewrite (fdiv_fin E fval_f2) by lra.
            destruct (@frnd_range _ _ _ a b (r / 2) Ha Hb) as (r' & Er' & Hr'); [lra|]. exists r'. auto.
          - apply IH; [lia|]. now apply Forall_inv_tail, Forall_inv_tail in Hh. }
        eapply H; [apply le_n|exact HF].
  Qed.
End RCT.
