(** RCSketch2: the sections of a level in f32 arithmetic. *)
From Coq Require Import List Arith ZArith NArith Lia Bool Reals Lra Psatz.
From Flocq Require Import Core BinarySingleNaN.
From Verif Require Import Base Floats IEEE Digest Spec FloatFacts TDigest RCSketch RC2.
Set Implicit Arguments.
Local Open Scope nat_scope.

(** the section size after j halvings *)
Definition stage (k : N) (j : nat) : f32 := Nat.iter j (fun x => fdiv x sqrt2_32) (fofZ (Z.of_N k)).

(** the parameters for which nothing overflows or vanishes *)
Definition k_ok (k : N) : Prop := (4 <= k <= 2 ^ 24)%N.

Definition r2 : R := (11863283 / 8388608)%R.
Lemma sqrt2_val : fval sqrt2_32 = XFin r2.
Proof.
  assert (B2SF sqrt2_32 = SpecFloat.S754_finite false 11863283 (-23)) as E by (vm_compute; reflexivity).
  change (bval sqrt2_32 = XFin r2). generalize dependent sqrt2_32. intros x E.
  destruct x as [s|s| |s m e H]; try discriminate.
  injection E as -> -> ->. cbn [bval B2R]. reflexivity.
Qed.

Lemma div_sqrt2 (x : f32) a : fval x = XFin a -> fval (fdiv x sqrt2_32) = frnd (a / r2)%R.
Proof. intros H. apply fdiv_fin; [exact H|exact sqrt2_val|unfold r2; lra]. Qed.


Lemma xle_fin_between lo x hi a b : fval lo = XFin a -> fval hi = XFin b -> fle lo x = true -> fle x (hi : f32) = true ->
  exists r, fval x = XFin r /\ (a <= r <= b)%R.
Proof.
  intros Hl Hh H1 H2. apply fle_iff in H1, H2. rewrite Hl in H1. rewrite Hh in H2. apply xle_iff in H1, H2.
  destruct (fval x) as [|[]|r]; cbn in H1, H2; try contradiction. exists r. auto.
Qed.

Lemma stage_0 k : stage k 0 = fofZ (Z.of_N k).
Proof. reflexivity. Qed.
Lemma stage_S k j : stage k (S j) = fdiv (stage k j) sqrt2_32.
Proof. reflexivity. Qed.

Lemma div_sqrt2_mono x y a b : fval x = XFin a -> fval y = XFin b -> fle x y = true ->
  fle (fdiv x sqrt2_32) (fdiv y sqrt2_32) = true.
Proof.
  intros Hx Hy H. apply fle_iff in H. rewrite Hx, Hy in H. apply xle_iff in H. cbn in H.
  apply fle_iff. rewrite (div_sqrt2 _ Hx), (div_sqrt2 _ Hy). apply frnd_mono. unfold r2. lra.
Qed.

Lemma fin_of_bits (x : f32) : is_finite x = true -> exists r, fval x = XFin r.
Proof. intros H. exists (B2R x). change (bval x = XFin (B2R x)). apply bval_fin. auto. Qed.

(** the stages lie between those of 4 and those of 2^24 *)
Lemma stage_between k j : k_ok k -> j <= 4 -> fle (stage 4 j) (stage k j) = true /\ fle (stage k j) (stage (2 ^ 24) j) = true.
Proof.
  intros Hk. induction j as [|j IH]; intros Hj.
  - rewrite !stage_0. split; apply fle_iff; rewrite !fofZ_val; apply frnd_mono, IZR_le; unfold k_ok in Hk; lia.
  - destruct IH as [H1 H2]; [lia|].
    assert (exists a, fval (stage 4 j) = XFin a) as [a Ha].
    { apply fin_of_bits. assert (j = 0 \/ j = 1 \/ j = 2 \/ j = 3) as [ -> | [ -> | [ -> | -> ]]] by lia; vm_compute; reflexivity. }
    assert (exists b, fval (stage (2 ^ 24) j) = XFin b) as [b Hb].
    { apply fin_of_bits. assert (j = 0 \/ j = 1 \/ j = 2 \/ j = 3) as [ -> | [ -> | [ -> | -> ]]] by lia; vm_compute; reflexivity. }
    destruct (xle_fin_between _ _ _ Ha Hb H1 H2) as (r & Hr & _).
    rewrite !stage_S. split; eapply div_sqrt2_mono; eauto.
Qed.

Lemma stage_fin k j : k_ok k -> j <= 4 -> exists r, fval (stage k j) = XFin r /\ (1 <= r <= 16777216)%R.
Proof.
  intros Hk Hj. destruct (stage_between Hk Hj) as [H1 H2].
  assert (fle (fofZ 1 : f32) (stage 4 j) = true) as H3.
  { assert (j = 0 \/ j = 1 \/ j = 2 \/ j = 3 \/ j = 4) as [ -> | [ -> | [ -> | [ -> | -> ]]]] by lia; vm_compute; reflexivity. }
  assert (fle (stage (2 ^ 24) j) (fofZ 16777216) = true) as H4.
  { assert (j = 0 \/ j = 1 \/ j = 2 \/ j = 3 \/ j = 4) as [ -> | [ -> | [ -> | [ -> | -> ]]]] by lia; vm_compute; reflexivity. }
  apply xle_fin_between with (lo := fofZ 1) (hi := fofZ 16777216).
  - apply (fval_int (F := f32)). vm_compute. discriminate.
  - apply (fval_int (F := f32)). vm_compute. discriminate.
  - eapply fle_trans; eauto.
  - eapply fle_trans; eauto.
Qed.

(** the integer section size at stage j *)
Definition sec (k : N) (j : nat) : nat := N.to_nat (as_u32 (stage k j)).

Lemma as_u32_fin (x : f32) r : fval x = XFin r -> (0 <= r <= 16777216)%R ->
  as_u32 x = Z.to_N (Ztrunc r) /\ as_usize x = Z.to_N (Ztrunc r) /\ (0 <= Ztrunc r <= 16777216)%Z.
Proof.
  intros Hx Hr. assert (0 <= Ztrunc r <= 16777216)%Z as Hz.
  { rewrite Ztrunc_floor by lra. split; [apply Zfloor_lub; cbn; lra|].
    apply le_IZR. eapply Rle_trans; [apply Zfloor_lb|]. lra. }
  unfold as_u32, as_usize. rewrite (@ftoZ_fin f32 _ _ x r Hx) by (change (IZR (2 ^ 64)) with 18446744073709551616%R; lra).
  repeat split; try lia. unfold u32_max. lia.
Qed.

Lemma sec_floor k j : k_ok k -> j <= 4 -> exists r, fval (stage k j) = XFin r /\ (1 <= r <= 16777216)%R /\
  as_u32 (stage k j) = N.of_nat (sec k j) /\ as_usize (stage k j) = N.of_nat (sec k j) /\ Z.of_nat (sec k j) = Zfloor r /\
  1 <= sec k j /\ (Z.of_nat (sec k j) <= 16777216)%Z.
Proof.
  intros Hk Hj. destruct (stage_fin Hk Hj) as (r & Hr & Hb). exists r.
  destruct (as_u32_fin _ Hr) as (E1 & E2 & E3); [lra|]. unfold sec. rewrite N2Nat.id, E1, E2.
  rewrite (Ztrunc_floor r) in * by lra.
  assert (1 <= Zfloor r)%Z by (apply Zfloor_lub; cbn; lra).
  repeat split; auto; try lra; try lia.
Qed.

Lemma sec_0 k : k_ok k -> sec k 0 = N.to_nat k.
Proof.
  intros Hk. destruct (sec_floor Hk (j := 0)) as (r & Hr & _ & _ & _ & E & _); [lia|].
  rewrite stage_0 in Hr.
  rewrite (fval_int (F := f32)) in Hr.
  - injection Hr as <-. rewrite Zfloor_IZR in E. lia.
  - change (@fint f32 _ _) with (2 ^ 24)%Z. unfold k_ok in Hk. lia.
Qed.

Lemma sec_half k j : k_ok k -> j < 4 -> sec k j <= 2 * sec k (S j) /\ sec k (S j) <= sec k j.
Proof.
  intros Hk Hj.
  destruct (sec_floor Hk (j := j)) as (r & Hr & Hrb & _ & _ & E & Hm & Hmm); [lia|].
  destruct (sec_floor Hk (j := S j)) as (r' & Hr' & Hrb' & _ & _ & E' & Hm1 & _); [lia|].
  rewrite stage_S, (div_sqrt2 _ Hr) in Hr'.
  set (m := Z.of_nat (sec k j)) in *. set (m' := Z.of_nat (sec k (S j))) in *.
  assert (IZR m <= r < IZR m + 1)%R as Hfl by (rewrite E; split; [apply Zfloor_lb|apply Zfloor_ub]).
  split.
  - destruct (Z.eq_dec m 1) as [Em|Em]; [lia|]. set (p := ((m + 1) / 2)%Z).
    assert (2 * p <= m + 1)%Z as Hp1 by (unfold p; pose proof (Z.div_mod (m + 1) 2); pose proof (Z.mod_pos_bound (m + 1) 2); lia).
    assert (m <= 2 * p)%Z as Hp2 by (unfold p; pose proof (Z.div_mod (m + 1) 2); pose proof (Z.mod_pos_bound (m + 1) 2); lia).
    assert (IZR p <= r / r2)%R as Hp.
    { apply Rle_trans with (IZR m / r2)%R; [|unfold r2; lra].
      assert (m = 2 \/ 3 <= m)%Z as [E2|H3] by lia.
      - rewrite E2 in *. assert (p = 1%Z) as -> by lia. unfold r2. lra.
      - apply IZR_le in H3, Hp1. rewrite plus_IZR, mult_IZR in Hp1. unfold r2. lra. }
    assert (fexact (F := f32) (IZR p)) as Hex.
    { apply fint_exact. change (@fint f32 _ _) with (2 ^ 24)%Z. lia. }
    pose proof (frnd_mono (F := f32) Hp) as Hmono. rewrite (frnd_exact (F := f32) Hex) in Hmono. rewrite Hr' in Hmono.
    apply xle_iff in Hmono. cbn in Hmono.
    assert (p <= m')%Z by (rewrite E'; apply Zfloor_lub; exact Hmono). lia.
  - assert (xle (frnd (F := f32) (r / r2)) (frnd r)) as Hmono by (apply frnd_mono; unfold r2; lra).
    rewrite (frnd_exact (F := f32) (r := r)) in Hmono by (eapply fval_exact; exact Hr).
    rewrite Hr' in Hmono. apply xle_iff in Hmono. cbn in Hmono.
    assert (m' <= m)%Z by (rewrite E, E'; apply Zfloor_le; exact Hmono). lia.
Qed.

(** the smallest section size a level can reach *)
Definition min_sec (k : N) : nat := sec k 4.
Lemma min_sec_le k j : k_ok k -> j <= 4 -> min_sec k <= sec k j.
Proof.
  intros Hk Hj. unfold min_sec. remember (4 - j) as d eqn:Ed. revert j Hj Ed.
  induction d as [|d IH]; intros j Hj Ed.
  - assert (j = 4) as -> by lia. reflexivity.
  - destruct (sec_half Hk (j := j)); [lia|]. specialize (IH (S j)). lia.
Qed.
Lemma min_sec_ge k : k_ok k -> 1 <= min_sec k.
Proof. intros Hk. unfold min_sec. destruct (sec_floor Hk (j := 4)) as (r & H); [lia|]. tauto. Qed.

Lemma stage_mono k k' j : k_ok k -> k_ok k' -> (k <= k')%N -> j <= 4 -> fle (stage k j) (stage k' j) = true.
Proof.
  intros Hk Hk' Hle. induction j as [|j IH]; intros Hj.
  - rewrite !stage_0. apply fle_iff. rewrite !fofZ_val. apply frnd_mono, IZR_le. lia.
  - destruct (stage_fin Hk (j := j)) as (r & Hr & _); [lia|]. destruct (stage_fin Hk' (j := j)) as (r' & Hr' & _); [lia|].
    rewrite !stage_S. eapply div_sqrt2_mono; eauto. apply IH. lia.
Qed.
Lemma sec_mono k k' j : k_ok k -> k_ok k' -> (k <= k')%N -> j <= 4 -> sec k j <= sec k' j.
Proof.
  intros Hk Hk' Hle Hj. pose proof (stage_mono Hk Hk' Hle Hj) as H.
  destruct (sec_floor Hk Hj) as (r & Hr & _ & _ & _ & E & _). destruct (sec_floor Hk' Hj) as (r' & Hr' & _ & _ & _ & E' & _).
  apply fle_iff in H. rewrite Hr, Hr' in H. apply xle_iff in H. cbn in H.
  apply Nat2Z.inj_le. rewrite E, E'. apply Zfloor_le. exact H.
Qed.
Lemma min_sec_2 k : k_ok k -> (8 <= k)%N -> 2 <= min_sec k.
Proof.
  intros Hk H8. assert (min_sec 8 = 2) as <- by (vm_compute; reflexivity).
  apply sec_mono; auto. unfold k_ok. split; vm_compute; discriminate.
Qed.

(* ------------------------------------------------------------------ *)
(** sections reached by a level *)
Definition num (j : nat) : nat := 3 * 2 ^ j.
Definition wf_sec (k : N) (j : nat) (s : sections) : Prop := j <= 4 /\ s = (N.of_nat (num j), stage k j).
Definition cap (k : N) (j : nat) : nat := 2 * num j * sec k j.

Lemma num_le j : j <= 4 -> 3 <= num j <= 48.
Proof. intros H. assert (j = 0 \/ j = 1 \/ j = 2 \/ j = 3 \/ j = 4) as [ -> | [ -> | [ -> | [ -> | -> ]]]] by lia; vm_compute; lia. Qed.

Lemma capacity_val k j s : k_ok k -> wf_sec k j s -> capacity s = Ret (cap k j).
Proof.
  intros Hk [Hj ->]. destruct (sec_floor Hk Hj) as (r & _ & _ & E & _ & _ & _ & Hm). pose proof (num_le Hj) as Hn.
  unfold capacity, mul_u32. cbn [fst snd]. rewrite E. unfold u32_max.
  destruct (N.ltb_spec 4294967295 (2 * N.of_nat (num j))) as [H|_]; [lia|]. cbn [bind].
  destruct (N.ltb_spec 4294967295 (2 * N.of_nat (num j) * N.of_nat (sec k j))) as [H|_]; [nia|]. cbn [bind].
  f_equal. unfold cap. lia.
Qed.

Lemma cap_mono k j : k_ok k -> j < 4 -> cap k j <= cap k (S j).
Proof.
  intros Hk Hj. destruct (sec_half Hk Hj) as [H _]. unfold cap, num. cbn [Nat.pow]. nia.
Qed.
Lemma cap_ge k j : k_ok k -> j <= 4 -> 6 * N.to_nat k <= cap k j.
Proof.
  intros Hk. induction j as [|j IH]; intros Hj.
  - unfold cap, num. rewrite (sec_0 Hk). cbn [Nat.pow]. lia.
  - pose proof (cap_mono Hk (j := j)). lia.
Qed.

(** the counter of a level at stage j stays below 2^(num j - 1) *)
Definition counter_ok (j : nat) (c : N) : Prop := (c < 2 ^ N.of_nat (num j - 1))%N.

Lemma update_val k j s c : k_ok k -> wf_sec k j s -> (c <= 2 ^ N.of_nat (num j - 1))%N -> (c <= u32_max)%N ->
  exists j' s', update_sections c s = Ret s' /\ wf_sec k j' s' /\ counter_ok j' c /\ cap k j <= cap k j'.
Proof.
  intros Hk [Hj ->] Hc Hu. unfold update_sections. cbn [fst snd]. rewrite fge_fle.
  destruct (fle _ _) eqn:Ef.
  - assert (j < 4) as Hj4.
    { assert (j <> 4); [intros ->|lia].
      apply fle_iff in Ef. rewrite !fofZ_val in Ef.
      assert (xlt (frnd (F := f32) (IZR (Z.of_N u32_max))) (frnd (IZR (2 ^ (Z.of_N (N.of_nat (num 4)) - 1))))) as Hlt.
      { rewrite <- !fofZ_val. apply flt_iff. vm_compute. reflexivity. }
      assert (xle (frnd (F := f32) (IZR (Z.of_N c))) (frnd (IZR (Z.of_N u32_max)))) as Hle by (apply frnd_mono, IZR_le; lia).
      pose proof (xle_lt_trans Hle Hlt) as H. apply xlt_not_le in H. contradiction. }
    exists (S j). pose proof (num_le Hj) as Hn.
    unfold mul_u32. destruct (N.ltb_spec u32_max (N.of_nat (num j) * 2)) as [H|_]; [unfold u32_max in H; lia|].
    cbn [bind]. eexists. split; [reflexivity|]. split; [|split].
    + split; [lia|]. rewrite stage_S. f_equal. unfold num. cbn [Nat.pow]. lia.
    + unfold counter_ok. eapply N.le_lt_trans; [exact Hc|]. apply N.pow_lt_mono_r; [lia|].
      unfold num in *. cbn [Nat.pow]. lia.
    + apply cap_mono; auto.
  - exists j, (N.of_nat (num j), stage k j). split; [reflexivity|]. split; [split; auto|]. split; [|lia].
    unfold counter_ok. destruct (N.eq_dec c (2 ^ N.of_nat (num j - 1))) as [->|Hne]; [exfalso|lia].
    pose proof (num_le Hj) as Hn.
    replace (Z.of_N (2 ^ N.of_nat (num j - 1))) with (2 ^ (Z.of_N (N.of_nat (num j)) - 1))%Z in Ef.
    + rewrite fle_refl in Ef; [discriminate|]. apply fisnan_false. rewrite fofZ_val. apply frnd_not_nan.
    + rewrite N2Z.inj_pow. f_equal. lia.
Qed.

Lemma trailing_lt j c : j <= 4 -> counter_ok j c -> trailing_ones c + 1 <= num j.
Proof.
  intros Hj Hc. pose proof (num_le Hj) as Hn. unfold counter_ok in Hc.
  assert (2 ^ N.of_nat (trailing_ones c) <= c + 1)%N as Hb.
  { destruct c as [|p]; [cbn; lia|]. cbn [trailing_ones]. clear. induction p as [p IH|p IH|].
    - cbn [pos_trailing_ones]. rewrite Nat2N.inj_succ, N.pow_succ_r by lia. lia.
    - cbn [pos_trailing_ones]. cbn. lia.
    - cbn. lia. }
  assert (2 ^ N.of_nat (trailing_ones c) <= 2 ^ N.of_nat (num j - 1))%N as H by lia.
  apply N.pow_le_mono_r_iff in H; lia.
Qed.
