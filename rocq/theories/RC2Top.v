(** RCSketch2: what its users can observe. *)
From Coq Require Import List Arith ZArith NArith Lia Bool Permutation Sorted Reals Lra Psatz.
From Flocq Require Import Core BinarySingleNaN.
From Verif Require Import Base Floats IEEE Digest Spec FloatFacts History TDigest RCSketch RCProofs RCHist RCRank RCExpect RCTop RCQuery RCObs RCObs2 RC2 RC2Sections RC2Proofs RC2Hist RC2Rank.
Set Implicit Arguments.
Local Open Scope nat_scope.

Section RC2T.
  Context {F : Type} {FO : FloatOps F} {FL : FloatLaws F}.
  Notation level2 := (@level2 F).
  Variable extra : nat.

  (** [RCSketch2::new(k)] followed by the insertions [ops]; then a query *)
  Definition rc2_run (k : N) (ops : list (rop F)) : M (rc2 F) := rexec2 extra (rc2_new k) ops.
  Definition rank_after2 k ops v : M Z := do s <- rc2_run k ops; interpolate_rank2 s v.
  Definition quantile_after2 k ops v : M F := do s <- rc2_run k ops; rc2_est_quantile s v.
  Definition value_after2 k ops q : M F := do s <- rc2_run k ops; rc2_est_value s q.

  (** all held items *)
  Definition held_items (s : rc2 F) : list F := lv_items (plain (r2_levels s)).
  Lemma held2_items (lv : list level2) : held2 lv = length (lv_items (plain lv)).
  Proof.
    unfold held2, lv_items, plain. induction lv as [|[[b c] s] up IH]; [reflexivity|]. cbn [map fst concat held].
    rewrite app_length, <- IH. reflexivity.
  Qed.

  (** the compaction counters cannot overflow *)
  Definition countable (k : N) (ops : list (rop F)) : Prop :=
    fast_mode ops \/ (N.of_nat (length (ritems_of ops)) <= N.of_nat (min_sec k) * u32_max)%N.
  Definition proper2 (k : N) (ops : list (rop F)) : Prop := k_ok k /\ countable k ops.

  (** ** invariants *)
  (** 3 for k >= 8 *)
  Definition odd_for (k : N) : nat := if (8 <=? k)%N then 3 else 1.
  Lemma odd3 k : k_ok k -> Nat.odd (odd_for k) = true /\ odd_for k <= min_sec k + 1.
  Proof.
    intros Hk. unfold odd_for. destruct (N.leb_spec 8 k) as [H|H].
    - pose proof (min_sec_2 Hk H). split; [reflexivity|lia].
    - split; [reflexivity|lia].
  Qed.

  Lemma rc2_state k ops o (P : F -> Prop) : proper2 k ops -> Nat.odd o = true /\ o <= min_sec k + 1 ->
    Forall (fun q => keeps (rmeth q) P) ops -> Forall P (ritems_of ops) ->
    always (fun s => ok_state k o P (r2_size s, r2_levels s) (length (ritems_of ops)) /\
                     r2_count s = Z.of_nat (length (ritems_of ops))) (rc2_run k ops).
  Proof.
    intros [Hk Hc] Ho HP Hit. eapply always_mono.
    - apply (@rexec2_always F FO FL k Hk o Ho P extra ops (rc2_new k) 0); auto. apply new_ok; auto.
    - cbn beta. intros s (_ & H & E). split; [exact H|]. rewrite E. reflexivity.
  Qed.

  Lemma default_keeps (ops : list (rop F)) (P : F -> Prop) : (forall x, P x -> fisnan x = false) -> default_method ops ->
    Forall (fun q => keeps (rmeth q) P) ops.
  Proof. intros HP. apply Forall_impl. intros o ->. now apply keeps_default_P. Qed.

  Lemma rc2_whenever k ops (mode : bool -> method -> Prop) (I : list level2 -> list F -> Prop) :
    (forall b c s up its items, I (((b, c), s) :: up) its -> I (((b ++ items, c), s) :: up) (its ++ items)) ->
    (forall fast m lv lv' its, mode fast m -> Press k fast m (length lv) lv lv' -> I lv its -> I lv' its) ->
    Forall (fun o => mode (rfast o) (rmeth o)) ops -> I [new_level k []] [] ->
    whenever (fun s => I (r2_levels s) (ritems_of ops) /\ r2_size s = length (held_items s) /\
                       r2_count s = Z.of_nat (length (ritems_of ops))) (rc2_run k ops).
  Proof.
    intros H1 H2 Hm H0. eapply whenever_mono.
    - apply (@rexec2_whenever F FO FL k mode I H1 H2 extra ops (rc2_new k) []); auto.
      split; [reflexivity|]. split; [exact H0|reflexivity].
    - cbn beta. intros s ((_ & HI & Hs) & Hc). split; [exact HI|]. split; [rewrite Hs; apply held2_items|].
      rewrite Hc. reflexivity.
  Qed.

  (** ** C48: counting; C49: sizes *)
  Lemma size_is_held k ops :
    whenever (fun s => r2_size s = length (held_items s) /\ r2_count s = Z.of_nat (length (ritems_of ops))) (rc2_run k ops).
  Proof.
    eapply whenever_mono; [apply rc2_whenever with (mode := fun _ _ => True) (I := fun _ _ => True); auto|].
    - now apply Forall_forall.
    - cbn beta. tauto.
  Qed.

  Lemma run2_always k ops : proper2 k ops -> default_method ops -> no_nan (ritems_of ops) ->
    always (fun s => r2_count s = Z.of_nat (length (ritems_of ops)) /\ r2_size s = length (held_items s) /\
                     (forall x, In x (held_items s) -> In x (ritems_of ops)) /\
                     exists cp, total_capacity (r2_levels s) = Ret cp /\ r2_size s < cp) (rc2_run k ops).
  Proof.
    intros Hp Hm Hn.
    eapply always_mono; [apply (@rc2_state k ops (odd_for k) (fun x => fisnan x = false /\ In x (ritems_of ops)) Hp)|].
    - apply odd3, Hp.
    - apply default_keeps; auto. tauto.
    - apply Forall_forall. intros x Hx. unfold no_nan in Hn. rewrite Forall_forall in Hn. auto.
    - cbn beta. intros s ((Hwf & _ & Ha & _ & Hs & Hlt) & Hc). cbn [fst snd] in *.
      split; [exact Hc|]. split; [rewrite Hs; apply held2_items|]. split.
      + apply all_in_items in Ha. rewrite Forall_forall in Ha. intros x Hx. now apply Ha.
      + exists (totcap (r2_levels s)). split; [|exact Hlt]. apply total_capacity_val with (k := k); auto. apply Hp.
  Qed.

  (** averaging, and any mixture of methods *)
  Lemma run2_any_method k ops (P : F -> Prop) : proper2 k ops -> Forall (fun q => keeps (rmeth q) P) ops -> Forall P (ritems_of ops) ->
    always (fun s => r2_count s = Z.of_nat (length (ritems_of ops)) /\ Forall P (held_items s)) (rc2_run k ops).
  Proof.
    intros Hp HP Hit. eapply always_mono; [apply (@rc2_state k ops (odd_for k) P Hp); auto; apply odd3, Hp|].
    cbn beta. intros s ((_ & _ & Ha & _) & Hc). split; [exact Hc|]. now apply all_in_items.
  Qed.

  (** ** levels *)
  Lemma fits2_short k o (lv : list level2) N h : k_ok k -> Nat.odd o = true /\ o <= min_sec k + 1 -> fits2 k o lv N -> (o + 1) ^ h * N < 6 * N.to_nat k * (2 * o) ^ h ->
    length lv <= h + 1.
  Proof.
    intros Hk Ho' HF Hlt. assert (1 <= o) as Ho by (destruct o; [destruct Ho'; discriminate|lia]). destruct (le_lt_dec (length lv) (h + 1)) as [|Hgt]; auto. exfalso.
    destruct lv as [|l0 [|l1 up]] eqn:El; cbn [length] in Hgt; [lia|lia|].
    assert (6 * N.to_nat k * (2 * o) ^ length up <= (o + 1) ^ length up * N) as HL
      by (eapply fits2_levels; eauto).
    assert (length up = h + (length up - h)) as E by lia. rewrite E, !Nat.pow_add_r in HL.
    assert ((o + 1) ^ (length up - h) <= (2 * o) ^ (length up - h)) as Hm by (apply Nat.pow_le_mono_l; lia).
    assert (1 <= (o + 1) ^ (length up - h)) as H1 by (pose proof (Nat.pow_nonzero (o + 1) (length up - h)); lia).
    set (x := (o + 1) ^ (length up - h)) in *. set (y := (2 * o) ^ (length up - h)) in *.
    set (a := (o + 1) ^ h) in *. set (b := 6 * N.to_nat k) in *. set (c := (2 * o) ^ h) in *.
    assert (a * N * x < b * c * x) by (apply Nat.mul_lt_mono_pos_r; lia).
    assert (b * c * x <= b * c * y) by (apply Nat.mul_le_mono_l; exact Hm).
    assert (b * (c * y) = b * c * y) by ring. assert (a * x * N = a * N * x) by ring. lia.
  Qed.

  Lemma levels2 k ops o h : proper2 k ops -> default_method ops -> no_nan (ritems_of ops) ->
    Nat.odd o = true -> o <= min_sec k + 1 ->
    (o + 1) ^ h * length (ritems_of ops) < 6 * N.to_nat k * (2 * o) ^ h ->
    always (fun s => length (r2_levels s) <= h + 1) (rc2_run k ops).
  Proof.
    intros Hp Hm Hn H1 H2 Hlt.
    eapply always_mono; [apply (@rc2_state k ops o (fun x => fisnan x = false) Hp (conj H1 H2)); auto|].
    - now apply default_keeps.
    - cbn beta. intros s ((_ & _ & _ & HF & _) & _). cbn [snd] in HF. eapply fits2_short; eauto. apply Hp.
  Qed.

  Lemma fits2_short4 k o (lv : list level2) N h : k_ok k -> Nat.odd o = true /\ o <= min_sec k + 1 -> fits2 k o lv N ->
    3 ^ h * N < 5 * N.to_nat k * 4 ^ h -> length lv <= h + 1.
  Proof.
    intros Hk Ho' HF Hlt. destruct (le_lt_dec (length lv) (h + 1)) as [|Hgt]; auto. exfalso.
    destruct lv as [|l0 [|l1 up]] eqn:El; cbn [length] in Hgt; [lia|lia|].
    destruct (@fits2_levels4 F k Hk o Ho' (length up) _ N HF eq_refl) as [H1 HL].
    assert (length up = h + (length up - h)) as E by lia. rewrite E, !Nat.pow_add_r in HL.
    assert (3 ^ (length up - h) <= 4 ^ (length up - h)) as Hm by (apply Nat.pow_le_mono_l; lia).
    assert (1 <= 3 ^ (length up - h)) as H3 by (pose proof (Nat.pow_nonzero 3 (length up - h)); lia).
    assert (5 * N.to_nat k <= 6 * N.to_nat k - 1) as H5 by (destruct Hk; lia).
    set (x := 3 ^ (length up - h)) in *. set (y := 4 ^ (length up - h)) in *.
    set (a := 3 ^ h) in *. set (b := 5 * N.to_nat k) in *. set (b' := 6 * N.to_nat k - 1) in *. set (c := 4 ^ h) in *.
    assert (a * N * x < b * c * x) by (apply Nat.mul_lt_mono_pos_r; lia).
    assert (b * c * x <= b * c * y) by (apply Nat.mul_le_mono_l; exact Hm).
    assert (b * c * y <= b' * (c * y)) by (rewrite <- Nat.mul_assoc; apply Nat.mul_le_mono_r; exact H5).
    assert (a * x * (N - 1) <= a * N * x) by (replace (a * N * x) with (a * x * N) by ring; apply Nat.mul_le_mono_l; lia). lia.
  Qed.

  (** at most 64 levels: 6 * (3/2)^63 > 2^39 and 5 * (4/3)^63 > 2^28; at most 31 levels: 6 * (3/2)^30 > 2^20 and 5 * (4/3)^30 > 2^14 *)
  Definition few (k : N) (n : nat) : Prop := (N.of_nat n <= k * 2 ^ 28)%N \/ ((8 <= k)%N /\ (N.of_nat n <= k * 2 ^ 39)%N).
  Definition fewer (k : N) (n : nat) : Prop := (N.of_nat n <= k * 2 ^ 14)%N \/ ((8 <= k)%N /\ (N.of_nat n <= k * 2 ^ 20)%N).

  Lemma short_by k (lv : list level2) N h e4 e3 : k_ok k -> fits2 k (odd_for k) lv N ->
    (3 ^ Z.of_nat h * 2 ^ Z.of_N e4 < 5 * 4 ^ Z.of_nat h)%Z -> (4 ^ Z.of_nat h * 2 ^ Z.of_N e3 < 6 * 6 ^ Z.of_nat h)%Z ->
    (N.of_nat N <= k * 2 ^ e4)%N \/ ((8 <= k)%N /\ (N.of_nat N <= k * 2 ^ e3)%N) -> length lv <= h + 1.
  Proof.
    intros Hk HF C4 C3 HN. assert (0 < Z.of_N k)%Z as Hk' by (destruct Hk; lia).
    destruct HN as [HN|[H8 HN]].
    - apply (@fits2_short4 k (odd_for k) lv N h Hk (odd3 Hk) HF). apply Nat2Z.inj_lt.
      rewrite !Nat2Z.inj_mul, !Nat2Z.inj_pow, N_nat_Z. change (Z.of_nat 3) with 3%Z. change (Z.of_nat 4) with 4%Z. change (Z.of_nat 5) with 5%Z.
      assert (Z.of_nat N <= Z.of_N k * 2 ^ Z.of_N e4)%Z as HN' by (apply N2Z.inj_le in HN; rewrite nat_N_Z, N2Z.inj_mul, N2Z.inj_pow in HN; exact HN).
      assert (0 < 3 ^ Z.of_nat h)%Z as H4 by (apply Z.pow_pos_nonneg; lia).
      generalize dependent (3 ^ Z.of_nat h)%Z. generalize dependent (4 ^ Z.of_nat h)%Z. generalize dependent (2 ^ Z.of_N e4)%Z.
      generalize dependent (Z.of_nat N). generalize dependent (Z.of_N k). intros kk Hkk n p Hn u v Hv Hp. nia.
    - pose proof (odd3 Hk) as Hodd. unfold odd_for in HF, Hodd. destruct (N.leb_spec 8 k) as [_|H]; [|lia].
      apply (@fits2_short k 3 lv N h Hk Hodd HF). apply Nat2Z.inj_lt.
      rewrite !Nat2Z.inj_mul, !Nat2Z.inj_pow, N_nat_Z. change (Z.of_nat (3 + 1)) with 4%Z. change (Z.of_nat (2 * 3)) with 6%Z. change (Z.of_nat 6) with 6%Z.
      assert (Z.of_nat N <= Z.of_N k * 2 ^ Z.of_N e3)%Z as HN' by (apply N2Z.inj_le in HN; rewrite nat_N_Z, N2Z.inj_mul, N2Z.inj_pow in HN; exact HN).
      assert (0 < 4 ^ Z.of_nat h)%Z as H4 by (apply Z.pow_pos_nonneg; lia).
      generalize dependent (4 ^ Z.of_nat h)%Z. generalize dependent (6 ^ Z.of_nat h)%Z. generalize dependent (2 ^ Z.of_N e3)%Z.
      generalize dependent (Z.of_nat N). generalize dependent (Z.of_N k). intros kk Hkk n p Hn u v Hv Hp. nia.
  Qed.
  Lemma short_64 k (lv : list level2) N : k_ok k -> fits2 k (odd_for k) lv N -> few k N -> length lv <= 64.
  Proof. intros Hk HF HN. apply (@short_by k lv N 63 28 39 Hk HF); [vm_compute; reflexivity|vm_compute; reflexivity|exact HN]. Qed.
  Lemma short_31 k (lv : list level2) N : k_ok k -> fits2 k (odd_for k) lv N -> fewer k N -> length lv <= 31.
  Proof. intros Hk HF HN. apply (@short_by k lv N 30 14 20 Hk HF); [vm_compute; reflexivity|vm_compute; reflexivity|exact HN]. Qed.

  Definition few2 (k : N) (ops : list (rop F)) : Prop :=
    few k (length (ritems_of ops)) \/ ((8 <= k)%N /\ Forall (fun o => rfast o = false) ops).
  Lemma min_sec_k k : k_ok k -> min_sec k <= N.to_nat k.
  Proof. intros Hk. rewrite <- (sec_0 Hk). apply min_sec_le; auto with arith. Qed.
  Lemma few2_items k ops : proper2 k ops -> few2 k ops -> ritems_of ops = [] \/ few k (length (ritems_of ops)).
  Proof.
    intros [Hk Hc] [H|[H8 Hn]]; auto. destruct Hc as [Hf|Hc].
    - left. unfold fast_mode in Hf. destruct ops as [|o ops]; [reflexivity|]. apply Forall_inv in Hf. apply Forall_inv in Hn. congruence.
    - right. right. split; [exact H8|]. pose proof (min_sec_k Hk). unfold u32_max in Hc. change (2 ^ 39)%N with 549755813888%N. nia.
  Qed.

  Lemma levels64 k ops (P : F -> Prop) : proper2 k ops -> few2 k ops -> Forall (fun q => keeps (rmeth q) P) ops -> Forall P (ritems_of ops) ->
    always (fun s => length (r2_levels s) <= 64) (rc2_run k ops).
  Proof.
    intros Hp Hf HP Hit. pose proof (proj1 Hp) as Hk.
    eapply always_mono; [apply (@rc2_state k ops (odd_for k) P Hp (odd3 Hk)); auto|].
    cbn beta. intros s ((_ & _ & _ & HF & _) & _). cbn [snd] in HF. eapply short_64; eauto.
    destruct (few2_items Hp Hf) as [E|E]; [rewrite E; left; cbn; lia|exact E].
  Qed.

  (** ** ranks *)
  Lemma rank_after2_always k ops v (P : Z -> Prop) : proper2 k ops -> few2 k ops -> default_method ops -> no_nan (ritems_of ops) ->
    whenever (fun s => P (Z.of_nat (rank2 (r2_levels s) v))) (rc2_run k ops) ->
    always P (rank_after2 k ops v).
  Proof.
    intros Hp Hf Hm Hn HP. unfold rank_after2. eapply always_bind.
    - eapply always_whenever_and; [apply (@levels64 k ops (fun x => fisnan x = false)); auto using default_keeps|exact HP].
    - intros s [H1 H2]. unfold interpolate_rank2. rewrite interpolate_rank_val; [exact H2|].
      unfold as_rc. cbn [rc_levels]. now rewrite map_length.
  Qed.

  Lemma rank_after2_expect k ops v (f : Z -> R) : proper2 k ops -> few2 k ops -> default_method ops -> no_nan (ritems_of ops) ->
    expect f (rank_after2 k ops v) = expect (fun s => f (Z.of_nat (rank2 (r2_levels s) v))) (rc2_run k ops).
  Proof.
    intros Hp Hf Hm Hn. unfold rank_after2. rewrite expect_bind.
    eapply expect_ext_always; [apply (@levels64 k ops (fun x => fisnan x = false)); auto using default_keeps|].
    cbn beta. intros s H. unfold interpolate_rank2. rewrite interpolate_rank_val; [reflexivity|].
    unfold as_rc. cbn [rc_levels]. now rewrite map_length.
  Qed.

  Lemma run2_true k ops : proper2 k ops -> default_method ops -> no_nan (ritems_of ops) -> always (fun _ => True) (rc2_run k ops).
  Proof. intros. eapply always_mono; [apply run2_always; eauto|auto]. Qed.

  (** C50 *)
  Lemma rank2_unbiased k ops v : proper2 k ops -> few2 k ops -> default_method ops -> no_nan (ritems_of ops) ->
    expect IZR (rank_after2 k ops v) = INR (n_le (ritems_of ops) v).
  Proof.
    intros Hp Hf Hm Hn. rewrite rank_after2_expect by assumption.
    erewrite expect_ext_always with (P := fun _ => True) (g := fun s => INR (rank2 (r2_levels s) v)).
    2: now apply run2_true.
    2: intros s _; now rewrite <- INR_IZR_INZ.
    unfold rc2_run. rewrite (@rexec2_expect F FO FL k v extra ops (rc2_new k)); auto; [|now apply run2_true].
    cbn. lra.
  Qed.

  (** C51 *)
  Lemma guard2 k ops : k_ok k -> proper2 k ops -> default_method ops -> no_nan (ritems_of ops) ->
    always (fun s => guard 0 (3 * N.to_nat k) (plain (r2_levels s)) (ritems_of ops)) (rc2_run k ops).
  Proof.
    intros Hk Hp Hm Hn.
    set (m := rc2_run k ops).
    assert (always (fun _ => True) m) as HA by now apply run2_true.
    assert (whenever (fun s => (wf k (r2_levels s) /\ guard 0 (3 * N.to_nat k) (plain (r2_levels s)) (ritems_of ops)) /\ r2_size s = length (held_items s) /\
                       r2_count s = Z.of_nat (length (ritems_of ops))) m) as HW.
    { apply rc2_whenever with (mode := fun _ mt => mt = Default)
        (I := fun lv its => wf k lv /\ guard 0 (3 * N.to_nat k) (plain lv) its); auto.
      - intros b c s up its items [H1 H2]. split; [constructor; [exact (Forall_inv H1)|exact (Forall_inv_tail H1)]|].
        cbn [plain map fst guard] in *. destruct H2 as (gone & G1 & G2 & G3 & G4). exists gone. split; [|split; [lia|split; [|exact G4]]].
        + rewrite <- app_assoc, (Permutation_app_comm items gone), app_assoc. now apply Permutation_app_tail.
        + intros x Hx. rewrite n_le_app. specialize (G3 x Hx). lia.
      - intros fast mt lv lv' its -> HP [H1 H2]. split; [eapply Press_wf; eauto|eapply Press_guard; eauto].
      - split; [repeat constructor; now apply wf_new|]. cbn. exists []. repeat split; auto; try lia; try contradiction. constructor. }
    eapply always_mono; [apply always_whenever_and; [exact HA|exact HW]|]. cbn beta. tauto.
  Qed.

  Lemma rank2_smallest k ops v : proper2 k ops -> few2 k ops -> default_method ops -> no_nan (ritems_of ops) ->
    n_le (ritems_of ops) v <= 3 * N.to_nat k ->
    always (fun z => z = Z.of_nat (n_le (ritems_of ops) v)) (rank_after2 k ops v).
  Proof.
    intros Hp Hf Hm Hn Hv. apply rank_after2_always; auto. apply always_whenever.
    eapply always_mono; [apply guard2; auto; apply Hp|]. cbn beta. intros s HG. f_equal.
    eapply guard_exact; [exact HG|exact Hv].
  Qed.

  (** rank error *)
  Lemma fits2_compactions k o (lv : list level2) : 1 <= o -> forall n, fits2 k o lv n ->
    min_sec k * lv_compactions (plain lv) * o ^ length lv + o * o ^ length lv * n <= o * (o + 1) ^ length lv * n.
  Proof.
    intros Ho. induction lv as [|[[b c] s] up IH]; intros n HF.
    - cbn in HF. subst. cbn. lia.
    - destruct HF as (r & n' & H1 & H2 & H3 & _ & H5). specialize (IH n' H5).
      cbn [plain map fst lv_compactions length Nat.pow]. fold (plain up).
      assert (o ^ length up <= (o + 1) ^ length up) as Hxy by (apply Nat.pow_le_mono_l; lia).
      set (x := o ^ length up) in *. set (y := (o + 1) ^ length up) in *. set (cc := lv_compactions (plain up)) in *.
      set (g := min_sec k) in *. set (c' := N.to_nat c) in *. clearbody x y cc g c'.
      assert (2 * o * n' <= (o + 1) * n) as H6 by nia.
      assert (exists d, y = x + d) as [d ->] by (exists (y - x); lia). clear Hxy.
      assert (g * cc * x <= o * d * n') as I1 by nia.
      assert (g * cc * x * (2 * o) <= o * d * n' * (2 * o)) as I2 by (apply Nat.mul_le_mono_r; exact I1).
      assert (o * d * (2 * o * n') <= o * d * ((o + 1) * n)) as I3 by (apply Nat.mul_le_mono_l; exact H6).
      assert (g * c' * (o * x) <= n * (o * x)) as I4 by (apply Nat.mul_le_mono_r; lia).
      replace (g * (c' + 2 * cc) * (o * x) + o * (o * x) * n) with (g * c' * (o * x) + g * cc * x * (2 * o) + o * (o * x) * n) by ring.
      replace (o * ((o + 1) * (x + d)) * n) with (n * (o * x) + o * d * ((o + 1) * n) + o * (o * x) * n) by ring.
      replace (o * d * n' * (2 * o)) with (o * d * (2 * o * n')) in I2 by ring. lia.
  Qed.

  Lemma rank2_error_state k ops v : default_mode ops ->
    whenever (fun s => (Z.abs (Z.of_nat (rank2 (r2_levels s) v) - Z.of_nat (n_le (ritems_of ops) v))
                        <= Z.of_nat (lv_compactions (plain (r2_levels s))))%Z) (rc2_run k ops).
  Proof.
    intros Hm. eapply whenever_mono.
    - apply rc2_whenever with (mode := fun f mt => f = false /\ mt = Default)
        (I := fun lv its => (Z.abs (Z.of_nat (rank2 lv v) - Z.of_nat (n_le its v)) <= Z.of_nat (lv_compactions (plain lv)))%Z); auto.
      + intros b c s up its items H. unfold rank2 in *. cbn [plain map fst lv_rank lv_compactions] in *. rewrite !n_le_app. lia.
      + intros fast mt lv lv' its [-> ->] HP H. pose proof (Press_rank v HP). lia.
      + cbn. lia.
    - cbn beta. tauto.
  Qed.

  (** with o near k/4, (1 + 1/o)^h is close to 1 + h/o, so the error is about (h + 1) N / min_sec *)
  Lemma rank2_error k ops v o h : proper2 k ops -> few2 k ops -> default_mode ops -> no_nan (ritems_of ops) ->
    Nat.odd o = true -> o <= min_sec k + 1 ->
    (o + 1) ^ h * length (ritems_of ops) < 6 * N.to_nat k * (2 * o) ^ h ->
    always (fun z => (Z.of_nat (min_sec k) * Z.abs (z - Z.of_nat (n_le (ritems_of ops) v)) * Z.of_nat o ^ Z.of_nat (h + 1)
                      <= Z.of_nat o * (Z.of_nat (o + 1) ^ Z.of_nat (h + 1) - Z.of_nat o ^ Z.of_nat (h + 1)) * Z.of_nat (length (ritems_of ops)))%Z)
           (rank_after2 k ops v).
  Proof.
    intros Hp Hf Hm Hn Ho1 Ho2 Hh. assert (1 <= o) as Ho by (destruct o; [discriminate|lia]).
    pose proof (default_mode_method Hm) as Hm'.
    apply rank_after2_always; auto. apply always_whenever.
    eapply always_mono.
    - apply always_whenever_and; [|apply (@rank2_error_state k ops v Hm)].
      apply (@rc2_state k ops o (fun x => fisnan x = false) Hp (conj Ho1 Ho2)); auto using default_keeps.
    - cbn beta. intros s [((_ & _ & _ & HF & _) & _) HE]. cbn [snd] in HF.
      pose proof (@fits2_short k o _ _ h (proj1 Hp) (conj Ho1 Ho2) HF Hh) as HL. pose proof (@fits2_compactions k o _ Ho _ HF) as HC.
      set (L := length (r2_levels s)) in *. set (N := length (ritems_of ops)) in *.
      set (e := Z.abs _) in *. set (cc := lv_compactions _) in *. clearbody e cc N.
      assert (h + 1 = L + (h + 1 - L)) as E by lia. rewrite E.
      rewrite <- !Nat2Z.inj_pow, !Nat.pow_add_r. set (d := h + 1 - L) in *.
      assert (o ^ L <= (o + 1) ^ L) as A1 by (apply Nat.pow_le_mono_l; lia).
      assert (o ^ d <= (o + 1) ^ d) as A2 by (apply Nat.pow_le_mono_l; lia).
      set (x := o ^ L) in *. set (y := (o + 1) ^ L) in *. set (x2 := o ^ d) in *. set (y2 := (o + 1) ^ d) in *.
      set (g := min_sec k) in *. clearbody x y x2 y2 g. clear -HE HC A1 A2 FL.
      assert (Z.of_nat g * Z.of_nat cc * Z.of_nat x + Z.of_nat o * Z.of_nat x * Z.of_nat N <= Z.of_nat o * Z.of_nat y * Z.of_nat N)%Z as HC'
        by (apply Nat2Z.inj_le in HC; rewrite Nat2Z.inj_add, !Nat2Z.inj_mul in HC; exact HC).
      rewrite !Nat2Z.inj_mul.
      assert (Z.of_nat g * e * Z.of_nat x <= Z.of_nat g * Z.of_nat cc * Z.of_nat x)%Z as H0
        by (apply Z.mul_le_mono_nonneg_r; [lia|]; apply Z.mul_le_mono_nonneg_l; lia).
      assert (Z.of_nat g * e * Z.of_nat x <= Z.of_nat o * (Z.of_nat y - Z.of_nat x) * Z.of_nat N)%Z as H1
        by (rewrite Z.mul_sub_distr_l, Z.mul_sub_distr_r; lia).
      assert (Z.of_nat g * e * Z.of_nat x * Z.of_nat x2 <= Z.of_nat o * (Z.of_nat y - Z.of_nat x) * Z.of_nat N * Z.of_nat x2)%Z as H2
        by (apply Z.mul_le_mono_nonneg_r; lia).
      assert (0 <= Z.of_nat o * Z.of_nat y * Z.of_nat N * (Z.of_nat y2 - Z.of_nat x2))%Z as H3 by nia. nia.
  Qed.

  (** ** as a [Digest] *)
  (** calls allowed: no NaN, counters in range; a quantile query needs at most 64 levels, a value query an item and at most 31 levels *)
  Definition allowed2 (k : N) (its : list F) (o : op F) : Prop :=
    match o with
    | Add x => fisnan x = false /\ (N.of_nat (length its + 1) <= N.of_nat (min_sec k) * u32_max)%N
    | AddBuf l => no_nan l /\ (N.of_nat (length its + length l) <= N.of_nat (min_sec k) * u32_max)%N
    | Quant _ => (8 <= k)%N \/ (N.of_nat (length its) <= k * 2 ^ 28)%N
    | Val _ => its <> [] /\ fewer k (length its)
    end.

  Definition inv2 (k : N) (s : rc2 F) (its : list F) : Prop :=
    r2_k s = k /\ ok_state k (odd_for k) (fun x => fisnan x = false) (r2_size s, r2_levels s) (length its) /\
    r2_count s = Z.of_nat (length its) /\ guard 0 (3 * N.to_nat k) (plain (r2_levels s)) its /\
    (N.of_nat (length its) <= N.of_nat (min_sec k) * u32_max)%N.

  Lemma guard_extend k its : forall b c s (up : list level2) items,
    guard 0 (3 * N.to_nat k) (plain (((b, c), s) :: up)) its ->
    guard 0 (3 * N.to_nat k) (plain (((b ++ items, c), s) :: up)) (its ++ items).
  Proof.
    intros b c s up items H2. cbn [plain map fst guard] in *. destruct H2 as (gone & G1 & G2 & G3 & G4).
    exists gone. split; [|split; [lia|split; [|exact G4]]].
    - rewrite <- app_assoc, (Permutation_app_comm items gone), app_assoc. now apply Permutation_app_tail.
    - intros x Hx. rewrite n_le_app. specialize (G3 x Hx). lia.
  Qed.

  Lemma inv2_step k s its o : k_ok k -> inv2 k s its -> rfast o = false -> rmeth o = Default -> no_nan (ritems o) ->
    (N.of_nat (length its + length (ritems o)) <= N.of_nat (min_sec k) * u32_max)%N ->
    always (fun s' => inv2 k s' (its ++ ritems o)) (rstep2 extra s o).
  Proof.
    intros Hk (Ek & HS & Hc & HG & Hr) Hf Hm Hn Hl.
    eapply always_mono; [apply always_whenever_and|].
    - apply (@rstep2_always F FO FL k Hk (odd_for k) (odd3 Hk) (fun x => fisnan x = false) extra s o (length its)); auto.
      + rewrite Hm. apply keeps_default.
      + right. exact Hl.
    - apply (@rstep2_whenever F FO FL k (fun _ mt => mt = Default)
        (fun lv its => wf k lv /\ guard 0 (3 * N.to_nat k) (plain lv) its)) with (its := its); auto.
      + intros b c s0 up its0 items [H1 H2]. split; [constructor; [exact (Forall_inv H1)|exact (Forall_inv_tail H1)]|].
        now apply guard_extend.
      + intros fast mt lv lv' its0 -> HP [H1 H2]. split; [eapply Press_wf; eauto|eapply Press_guard; eauto].
      + destruct HS as (Hwf & _ & _ & _ & Hsz & _). split; [exact Ek|]. split; [split; [exact Hwf|exact HG]|exact Hsz].
    - cbn beta. intros s' [(E1 & E2 & E3) [(_ & [_ HG'] & _) _]]. unfold inv2. rewrite app_length.
      split; [exact E1|]. split; [exact E2|]. split; [rewrite E3, Hc; lia|]. split; [exact HG'|exact Hl].
  Qed.

  Lemma guard_nonempty q (lv : list level2) its : 1 <= q -> guard 0 q (plain lv) its -> its <> [] -> lv_items (plain lv) <> [].
  Proof.
    intros Hq HG Hne. destruct lv as [|[[b c] s] up]; [cbn in HG; congruence|]. unfold lv_items. cbn [plain map fst concat] in *.
    destruct HG as (gone & Hp & _ & Hg & _). destruct b as [|x b]; [|discriminate]. exfalso. cbn [app] in Hp.
    destruct gone as [|x gone]; [apply Permutation_sym, Permutation_nil in Hp; congruence|].
    specialize (Hg x (or_introl eq_refl)). unfold n_le in Hg. cbn [filter length] in Hg. lia.
  Qed.

  Lemma digest2_always k ops : k_ok k -> ok_hist (allowed2 k) [] ops ->
    always (fun r => r2_count (fst r) = Z.of_nat (length (items_of ops))) (exec (rc2_digest extra) (rc2_new k) ops).
  Proof.
    intros Hk Ho. eapply always_mono.
    - apply (@exec_always F (rc2_digest extra) (allowed2 k) (inv2 k)) with (its := []); auto.
      + intros s its o HI Hok.
        assert (forall its', items_of [o] = its' -> its' = [] -> its ++ items_of [o] = its) as Hnil
          by (intros its' E1 E2; rewrite E1, E2; apply app_nil_r).
        destruct o as [x|l|v|q]; cbn [step rc2_digest d_add d_add_buffer d_est_q d_est_v allowed2] in *.
        * destruct Hok as [Hx Hlen]. cbn [items_of flat_map app] in *.
          eapply always_bind; [apply (@inv2_step k s its (RAdd x)); auto; repeat constructor; auto|].
          intros s' Hs'. exact Hs'.
        * destruct Hok as [Hx Hlen]. cbn [items_of flat_map] in *. rewrite app_nil_r.
          eapply always_bind; [apply (@inv2_step k s its (RBuf l)); auto|]. intros s' Hs'. exact Hs'.
        * destruct HI as (E1 & HS & E3 & HG & Hr).
          assert (length (r2_levels s) <= 64) as HL.
          { destruct HS as (_ & _ & _ & HF & _). eapply short_64; eauto. destruct Hok as [Hok|Hok]; [right|left; exact Hok].
            split; [exact Hok|]. pose proof (min_sec_k Hk). unfold u32_max in Hr. change (2 ^ 39)%N with 549755813888%N. nia. }
          unfold rc2_est_quantile, rc_est_quantile.
          rewrite interpolate_rank_val by (unfold as_rc; cbn [rc_levels]; now rewrite map_length). cbn [bind always fst].
          rewrite (Hnil [] eq_refl eq_refl). unfold inv2. auto.
        * destruct Hok as [Hne Hev]. pose proof HI as (E1 & HS & E3 & HG & Hr).
          assert (length (r2_levels s) <= 31) as HL by (destruct HS as (_ & _ & _ & HF & _); eapply short_31; eauto).
          eapply always_bind with (P := fun r => fst r = s).
          { eapply always_bind; [apply rc_est_value_ok|].
            - unfold as_rc. cbn [rc_levels]. now rewrite map_length.
            - unfold as_rc. cbn [rc_levels]. apply all_in_items. apply HS.
            - unfold as_rc. cbn [rc_levels]. eapply guard_nonempty; [|exact HG|exact Hne]. destruct Hk. lia.
            - intros x _. reflexivity. }
          intros [s' a] E. cbn [fst] in E. subst s'. cbn [always fst]. rewrite (Hnil [] eq_refl eq_refl). exact HI.
      + unfold inv2. split; [reflexivity|]. split; [apply new_ok; auto; now apply odd3|]. split; [reflexivity|]. split.
        * cbn. exists []. repeat split; auto; try lia; try contradiction. constructor.
        * cbn [length]. lia.
    - cbn beta. intros [s a]. cbn [fst app]. intros (_ & _ & H & _). exact H.
  Qed.

  (** answers of the value query are held items *)
  Lemma value2_held k ops q : proper2 k ops -> default_method ops -> no_nan (ritems_of ops) -> ritems_of ops <> [] ->
    fewer k (length (ritems_of ops)) ->
    always (fun x => In x (ritems_of ops)) (value_after2 k ops q).
  Proof.
    intros Hp Hm Hn Hne Hl. pose proof (proj1 Hp) as Hk. unfold value_after2. eapply always_bind.
    - apply always_and; [apply (guard2 Hk Hp Hm Hn)|].
      apply (@rc2_state k ops (odd_for k) (fun x => fisnan x = false /\ In x (ritems_of ops)) Hp (odd3 Hk)).
      + apply default_keeps; auto. tauto.
      + apply Forall_forall. intros x Hx. unfold no_nan in Hn. rewrite Forall_forall in Hn. auto.
    - cbn beta. intros s [HG ((_ & _ & Ha & HF & _) & _)]. cbn [snd] in *. apply all_in_items in Ha. rewrite Forall_forall in Ha.
      eapply always_mono; [apply rc_est_value_ok|].
      + unfold as_rc. cbn [rc_levels]. rewrite map_length. eapply short_31; eauto.
      + unfold as_rc. cbn [rc_levels]. apply Forall_forall. intros x Hx. now apply Ha.
      + unfold as_rc. cbn [rc_levels]. eapply guard_nonempty; [|exact HG|exact Hne]. destruct Hk. lia.
      + cbn beta. intros x Hx. now apply Ha.
  Qed.

  (** variance *)
  Lemma rank2_variance k ops v : proper2 k ops -> few2 k ops -> default_mode ops -> no_nan (ritems_of ops) ->
    (expect (fun z => (IZR z - INR (n_le (ritems_of ops) v)) ^ 2) (rank_after2 k ops v)
     <= expect (fun s => INR (lv_compactions2 (plain (r2_levels s)))) (rc2_run k ops))%R.
  Proof.
    intros Hp Hf Hm Hn. pose proof (default_mode_method Hm) as Hm'. pose proof (run2_true Hp Hm' Hn) as HA.
    rewrite rank_after2_expect by assumption.
    pose proof (@rexec2_square F FO FL k v extra ops (rc2_new k) (- INR (n_le (ritems_of ops) v)) Hm eq_refl HA) as H.
    fold (rc2_run k ops) in H.
    assert (INR (rank2 (r2_levels (rc2_new k)) v) = 0%R) as E0 by reflexivity.
    assert (INR (lv_compactions2 (plain (r2_levels (rc2_new (F := F) k)))) = 0%R) as E1 by reflexivity.
    rewrite E0, E1 in H.
    erewrite expect_ext_always with (P := fun _ => True)
      (g := fun s => (((INR (rank2 (r2_levels s) v) + - INR (n_le (ritems_of ops) v)) ^ 2 - INR (lv_compactions2 (plain (r2_levels s))))
                     + INR (lv_compactions2 (plain (r2_levels s))))%R).
    2: exact HA.
    2: { intros s _. cbn beta. rewrite <- INR_IZR_INZ. ring. }
    rewrite expect_plus. 
    replace (0 + (INR (n_le (ritems_of ops) v) + - INR (n_le (ritems_of ops) v)))%R with 0%R in H by ring. lra.
  Qed.

  Lemma held_within2 k ops a b : proper2 k ops -> Forall (within a b) (ritems_of ops) ->
    fexact a -> fexact b -> fexact (2 * a) -> fexact (2 * b) ->
    always (fun s => r2_count s = Z.of_nat (length (ritems_of ops)) /\ Forall (within a b) (held_items s)) (rc2_run k ops).
  Proof.
    intros Hp Hw Ha Hb Ha2 Hb2. apply run2_any_method; auto. apply Forall_forall. intros o _. now apply keeps_within.
  Qed.
End RC2T.

(** ** k = 0 *)
Section Zero.
  Context {F : Type} {FO : FloatOps F}.
  Notation level2 := (@level2 F).

  Lemma zero_div : fdiv (fofZ 0 : f32) sqrt2_32 = fofZ 0.
  Proof. vm_compute. reflexivity. Qed.
  Lemma zero_capacity ns : capacity (ns, fofZ 0) = Ret 0 \/ capacity (ns, fofZ 0) = Panic.
  Proof.
    unfold capacity, mul_u32. cbn [fst snd]. destruct (u32_max <? 2 * ns)%N; cbn [bind]; [now right|].
    assert (as_u32 (fofZ 0) = 0%N) as -> by (vm_compute; reflexivity). rewrite N.mul_0_r. left. reflexivity.
  Qed.
  Definition zero_level (l : level2) : Prop := fst (fst l) = [] /\ snd (snd l) = fofZ 0.

  Lemma zero_total (lv : list level2) : Forall zero_level lv -> total_capacity lv = Ret 0 \/ total_capacity lv = Panic.
  Proof.
    induction 1 as [|[[b c] [ns ss]] up [Hb Hs] Hup IH]; cbn [total_capacity]; [now left|]. cbn [fst snd] in Hs. subst ss.
    destruct (zero_capacity ns) as [-> | ->]; cbn [bind]; [|now right].
    destruct IH as [-> | ->]; cbn [bind]; [now left|now right].
  Qed.

  Lemma zero_extend (up : list level2) : Forall zero_level up -> Forall zero_level (extend_next 0 up []).
  Proof.
    destruct up as [|[[b c] s] up]; cbn [extend_next]; intros H.
    - repeat constructor.
    - rewrite app_nil_r. exact H.
  Qed.

  Lemma zero_compress fast m n : forall size (lv : list level2), Forall zero_level lv ->
    whenever (fun r => fst r = size /\ Forall zero_level (snd r)) (compress_from 0 fast m n size lv).
  Proof.
    induction n as [|n IH]; intros size lv H; cbn [compress_from]; [split; auto|].
    destruct lv as [|[[b c] [ns ss]] up]; [exact I|]. pose proof (Forall_inv H) as [Hb Hs]. apply Forall_inv_tail in H.
    cbn [fst snd] in Hb, Hs. subst b ss.
    destruct (zero_capacity ns) as [-> | ->]; cbn [bind length Nat.ltb Nat.leb]; [|exact I].
    assert (forall i, whenever (fun r => r = ([], [])) (rc_compact ([] : list F) i m)) as Hcomp.
    { intros i. unfold rc_compact. cbn [length]. unfold sort_by_key. cbn. destruct i; cbn; [|exact I].
      destruct m; cbn; [intros [|]; cbn; reflexivity|reflexivity]. }
    eapply whenever_bind; [apply whenever_true|]. intros [i c'] _.
    eapply whenever_bind; [apply Hcomp|]. intros [lo out] [= -> ->].
    cbn [length]. rewrite Nat.sub_0_l. destruct (size <? 0); [exact I|].
    eapply whenever_bind with (P := fun s' => snd s' = fofZ 0).
    { unfold update_sections, mul_u32. cbn [fst snd]. destruct (fge _ _); [|exact eq_refl].
      destruct (_ <? _)%N; cbn [bind whenever]; [exact I|]. cbn [snd]. apply zero_div. }
    intros s' Hs'. eapply whenever_bind; [apply IH, zero_extend; exact H|].
    intros [size' up'] [E1 E2]. cbn [fst snd whenever] in *. split; [lia|]. constructor; [|exact E2]. split; [reflexivity|exact Hs'].
  Qed.

  Lemma zero_batch fast m fuel (x : F) l : forall (lv : list level2), Forall zero_level lv ->
    whenever (fun _ => False) (insert_batch 0 fast m fuel 0 lv (x :: l)).
  Proof.
    induction fuel as [|fuel IH]; intros lv H; cbn [insert_batch]; [exact I|].
    destruct (zero_total H) as [Et|Et]; rewrite Et; cbn [bind]; [|exact I].
    change (0 <? 0) with false. cbv iota.
    change (Nat.min (0 - 0) (length (x :: l))) with 0. change (0 + 0) with 0. cbn [firstn skipn].
    assert ((do lv' <- extend_bottom lv []; compress_if_full 0 fast m 0 lv')
            = match lv with [] => Panic | _ => compress_from 0 fast m (length lv) 0 lv end) as E.
    { destruct lv as [|[[b c] s] up]; [reflexivity|]. cbn [extend_bottom bind]. rewrite app_nil_r. unfold compress_if_full.
      change (total_capacity (((b, c, s) : level2) :: up) = Ret 0) in Et.
      transitivity (do cap <- Ret 0; if 0 <? cap then Ret (0, ((b, c, s) : level2) :: up) else compress_from 0 fast m (length (((b, c, s) : level2) :: up)) 0 (((b, c, s) : level2) :: up)).
      - rewrite <- Et. reflexivity.
      - reflexivity. }
    rewrite <- bind_assoc. eapply whenever_bind with (P := fun r => fst r = 0 /\ Forall zero_level (snd r)).
    - refine (eq_ind_r (whenever _) _ E). destruct lv as [|l0 up]; [exact I|]. now apply zero_compress.
    - intros [size' lv'] [E1 E2]. cbn [fst snd] in *. subst size'. apply IH. exact E2.
  Qed.

  Lemma zero_never_returns extra (x : F) l : whenever (fun _ => False) (rc2_add_buffer extra (rc2_new 0) (x :: l)).
  Proof.
    unfold rc2_add_buffer, rc2_add_buffer_custom. eapply whenever_bind; [apply zero_batch|contradiction].
    repeat constructor.
  Qed.
End Zero.

(** ** k > 715827872: the size of the first buffer, 6 (k as f32), is above 2^32 - 1 *)
Section Huge.
  Context {F : Type} {FO : FloatOps F}.

  Lemma huge_val : fval (fofZ 715827873 : f32) = XFin 715827904.
  Proof.
    assert (B2SF (fofZ 715827873 : f32) = SpecFloat.S754_finite false 11184811 6) as E by (vm_compute; reflexivity).
    change (bval (fofZ 715827873 : f32) = XFin 715827904). generalize dependent (fofZ 715827873 : f32). intros x E.
    destruct x as [s|s| |s m e H]; try discriminate.
    injection E as -> -> ->. cbn [bval B2R]. unfold F2R, Defs.F2R. cbn. f_equal. lra.
  Qed.
  Lemma huge_capacity k : (715827872 < k < 2 ^ 64)%N -> capacity (3%N, fofZ (Z.of_N k)) = Panic.
  Proof.
    intros Hk.
    assert (fle (fofZ 715827873 : f32) (fofZ (Z.of_N k)) = true) as H1.
    { apply fle_iff. rewrite !fofZ_val. apply frnd_mono, IZR_le. lia. }
    assert (fle (fofZ (Z.of_N k) : f32) (fofZ (2 ^ 64)) = true) as H2.
    { apply fle_iff. rewrite !fofZ_val. apply frnd_mono, IZR_le. lia. }
    assert (fval (fofZ (2 ^ 64) : f32) = XFin 18446744073709551616) as Hhi.
    { assert (B2SF (fofZ (2 ^ 64) : f32) = SpecFloat.S754_finite false 8388608 41) as E by (vm_compute; reflexivity).
      change (bval (fofZ (2 ^ 64) : f32) = XFin 18446744073709551616). generalize dependent (fofZ (2 ^ 64) : f32). intros x _ E.
      destruct x as [s|s| |s m e H]; try discriminate.
      injection E as -> -> ->. cbn [bval B2R]. unfold F2R, Defs.F2R. cbn. f_equal. lra. }
    destruct (xle_fin_between _ _ _ huge_val Hhi H1 H2) as (r & Hr & Hb).
    unfold capacity, as_u32. cbn [fst snd].
    assert (mul_u32 2 3 = Ret 6%N) as -> by (vm_compute; reflexivity). cbn [bind].
    set (x := fofZ (Z.of_N k) : f32) in *.
    assert (exists z, (match ftoZ x with Some z => N.min u32_max (Z.to_N z) | None => if fgt x f0 then u32_max else 0%N end) = N.min u32_max z
                      /\ (715827904 <= z)%N) as (z & -> & Hz).
    { destruct (Rlt_dec r 18446744073709551616) as [Hlt|Hlt].
      - rewrite (@ftoZ_fin f32 _ _ _ r Hr) by (change (IZR (2 ^ 64)) with 18446744073709551616%R; lra).
        exists (Z.to_N (Ztrunc r)). split; [reflexivity|].
        assert (715827904 <= Ztrunc r)%Z; [|lia]. rewrite Ztrunc_floor by lra. apply Zfloor_lub. lra.
      - rewrite (@ftoZ_none f32 _ _ _ r Hr) by (change (IZR (2 ^ 64)) with 18446744073709551616%R; lra).
        assert (fgt x f0 = true) as ->.
        { rewrite fgt_flt. apply flt_iff. rewrite Hr, fval_f0. apply xlt_iff. cbn. lra. }
        exists u32_max. split; [reflexivity|]. vm_compute. discriminate. }
    unfold mul_u32, u32_max. destruct (N.ltb_spec 4294967295 (6 * N.min 4294967295 z)) as [H|H]; [reflexivity|lia].
  Qed.
  Lemma huge_panics extra k (o : rop F) : (715827872 < k < 2 ^ 64)%N -> ritems o <> [] -> rstep2 extra (rc2_new k) o = Panic.
  Proof.
    intros Hk Ho. pose proof (huge_capacity Hk) as E.
    destruct o as [x|l|l fast m]; cbn [rstep2 ritems] in *.
    - unfold rc2_add, insert2, rc2_new, new_level. cbn [r2_levels r2_k r2_size extend_bottom bind].
      unfold compress_if_full. cbn [total_capacity]. rewrite E. reflexivity.
    - destruct l as [|x l]; [contradiction|]. unfold rc2_add_buffer, rc2_add_buffer_custom, rc2_new, new_level. cbn [r2_levels r2_k r2_size length].
      rewrite Nat.add_succ_r. cbn [insert_batch total_capacity]. rewrite E. reflexivity.
    - destruct l as [|x l]; [contradiction|]. unfold rc2_add_buffer_custom, rc2_new, new_level. cbn [r2_levels r2_k r2_size length].
      rewrite Nat.add_succ_r. cbn [insert_batch total_capacity]. rewrite E. reflexivity.
  Qed.
End Huge.
