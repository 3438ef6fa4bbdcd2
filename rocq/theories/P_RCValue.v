(** Properties C79 and C80: accuracy of the value queries of RCSketch and RCSketch2. *)
From Coq Require Import List Arith ZArith NArith Lia Bool Reals Lra.
From Verif Require Import Base Floats XReal IEEE Digest Spec FloatFacts TDigest RCSketch RCProofs RCHist RCRank RCExpect RCTop RCQuery RCObs RCObs2 P_Parallel P_TDigest P_RC RCRelTop RCValue RC2 RC2Sections RC2Proofs RC2Hist RC2Rank RC2Top P_RC2 RC2Value.
Set Implicit Arguments.
Local Open Scope nat_scope.

(** [n_lt items x] and [n_le items x] count the items below [x] and those at most [x]; the item [x] occupies the ranks between the
    two.  [t] is the rank asked for: q times the number of items, as a float. *)

(* ------------------------------------------------------------------ *)
(** * C79 *)
(** every run: at most h N / k ranks off *)
Theorem C79_worst : forall F (FO : FloatOps F) (FL : FloatLaws F) lg n k (ops : list (rop F)) q r,
  proper lg n k ops -> default_mode ops -> Nat.even k = true -> few_levels31 n k ops -> ritems_of ops <> [] ->
  (Z.of_nat (length (ritems_of ops)) <= fint)%Z -> fval q = XFin r -> (0 <= r <= 1)%R ->
  forall h bs, calc_buffer_size lg n k = Ret bs -> length (ritems_of ops) < bs * 2 ^ h ->
  exists t, fval (fmul q (fofZ (Z.of_nat (length (ritems_of ops))))) = XFin t /\
    always (fun x => In x (ritems_of ops) /\
              (INR k * INR (n_lt (ritems_of ops) x) - INR (h * length (ritems_of ops)) <= INR k * t
               <= INR k * INR (n_le (ritems_of ops) x) + INR (h * length (ritems_of ops)))%R) (value_after lg n k ops q).
Proof. exact @value_error. Qed.
Print Assumptions C79_worst.
(** ranks below half a buffer: exact *)
Theorem C79_smallest : forall F (FO : FloatOps F) (FL : FloatLaws F) lg n k (ops : list (rop F)) q r,
  proper lg n k ops -> default_mode ops -> Nat.even k = true -> few_levels31 n k ops -> ritems_of ops <> [] ->
  (Z.of_nat (length (ritems_of ops)) <= fint)%Z -> fval q = XFin r -> (0 <= r <= 1)%R ->
  forall bs, calc_buffer_size lg n k = Ret bs ->
  exists t, fval (fmul q (fofZ (Z.of_nat (length (ritems_of ops))))) = XFin t /\
    ((t < INR (bs / 2))%R -> (t < INR (length (ritems_of ops)))%R ->
     always (fun x => In x (ritems_of ops) /\ (INR (n_lt (ritems_of ops) x) <= t < INR (n_le (ritems_of ops) x))%R) (value_after lg n k ops q)).
Proof. exact @value_smallest. Qed.
Print Assumptions C79_smallest.
(** relative to the rank: an answer with R items at most it, for any h with R (1 + 1/k)^h <= (bs/2) 2^h *)
Theorem C79_relative : forall F (FO : FloatOps F) (FL : FloatLaws F) lg n k (ops : list (rop F)) q r,
  proper lg n k ops -> default_mode ops -> Nat.even k = true -> few_levels31 n k ops -> ritems_of ops <> [] ->
  (Z.of_nat (length (ritems_of ops)) <= fint)%Z -> fval q = XFin r -> (0 <= r <= 1)%R ->
  forall bs, calc_buffer_size lg n k = Ret bs ->
  exists t, fval (fmul q (fofZ (Z.of_nat (length (ritems_of ops))))) = XFin t /\
    always (fun x => In x (ritems_of ops) /\ forall h, n_le (ritems_of ops) x * (k + 1) ^ h <= bs / 2 * (2 * k) ^ h ->
              (INR (n_lt (ritems_of ops) x) * (2 - (1 + / INR k) ^ h) <= t <= INR (n_le (ritems_of ops) x) * (1 + / INR k) ^ h)%R)
           (value_after lg n k ops q).
Proof. exact @value_relative. Qed.
Print Assumptions C79_relative.
(** [prob p m]: probability over the coins; an answer d ranks too low, and one d ranks too high *)
Theorem C79_tail_low : forall F (FO : FloatOps F) (FL : FloatLaws F) lg n k (ops : list (rop F)) q r,
  proper lg n k ops -> default_mode ops -> Nat.even k = true -> few_levels31 n k ops -> ritems_of ops <> [] ->
  (Z.of_nat (length (ritems_of ops)) <= fint)%Z -> fval q = XFin r -> (0 <= r <= 1)%R ->
  forall bs d, calc_buffer_size lg n k = Ret bs -> (0 <= d)%R ->
  exists t, fval (fmul q (fofZ (Z.of_nat (length (ritems_of ops))))) = XFin t /\
    (d ^ 2 * (INR k * INR bs) * prob (fun x => rleb (INR (n_le (ritems_of ops) x) + d) t) (value_after lg n k ops q)
     <= 2 * INR (length (ritems_of ops)) ^ 2)%R.
Proof. exact @value_tail_low. Qed.
Print Assumptions C79_tail_low.
Theorem C79_tail_high : forall F (FO : FloatOps F) (FL : FloatLaws F) lg n k (ops : list (rop F)) q r,
  proper lg n k ops -> default_mode ops -> Nat.even k = true -> few_levels31 n k ops -> ritems_of ops <> [] ->
  (Z.of_nat (length (ritems_of ops)) <= fint)%Z -> fval q = XFin r -> (0 <= r <= 1)%R ->
  forall bs d, calc_buffer_size lg n k = Ret bs -> (0 < d)%R ->
  exists t, fval (fmul q (fofZ (Z.of_nat (length (ritems_of ops))))) = XFin t /\
    (d ^ 2 * (INR k * INR bs) * prob (fun x => rleb (t + d) (INR (n_lt (ritems_of ops) x))) (value_after lg n k ops q)
     <= 2 * INR (length (ritems_of ops)) ^ 2)%R.
Proof. exact @value_tail_high. Qed.
Print Assumptions C79_tail_high.

(** 24 items 1..24, k = 2, buffers of 16: asked for the ranks 0..24, the sketch answers exactly up to rank 9, and above that is off
    by up to one either way, depending on the coins *)
Definition values24 (coins : list bool) : list nat :=
  match run (do s <- rc_run lg64 24 2 ops24; mapM (fun q => rc_est_value s (fdiv (w64 q) (w64 24))) (map Z.of_nat (seq 0 25))) coins with
  | Returned l => map (n_le (ritems_of ops24)) l | _ => [] end.
Example C79_nonvacuous :
  values24 (repeat false 9) = [1; 2; 3; 4; 5; 6; 7; 8; 9; 10; 11; 11; 13; 13; 15; 15; 17; 17; 19; 19; 21; 21; 23; 23; 23] /\
  values24 (repeat true 9) = [1; 2; 3; 4; 5; 6; 7; 8; 9; 10; 12; 12; 14; 14; 16; 16; 18; 18; 20; 20; 22; 22; 24; 24; 24].
Proof. vm_compute. split; reflexivity. Qed.
(** rank 3 is asked for with q = 1/8: the answer has exactly 3 items below it, whatever the coins *)
Lemma quantile64 (q : f64) : fle (w64 0) q = true -> fle q (w64 1) = true -> exists r, fval q = XFin r /\ (0 <= r <= 1)%R.
Proof.
  intros H1 H2. apply fle_iff in H1, H2.
  assert (fval (w64 0) = XFin 0) as E0 by (apply (@fval_int f64 f64_ops f64_laws 0); vm_compute; discriminate).
  assert (fval (w64 1) = XFin 1) as E1 by (apply (@fval_int f64 f64_ops f64_laws 1); vm_compute; discriminate).
  rewrite E0 in H1. rewrite E1 in H2. apply xle_iff in H1, H2. destruct (fval q) as [|[]|r]; cbn in H1, H2; try contradiction.
  exists r. split; [reflexivity|lra].
Qed.
Lemma rank64 (x : f64) z t : feq x (w64 z) = true -> (Z.abs z <= 2 ^ 53)%Z -> fval x = XFin t -> t = IZR z.
Proof.
  intros H Hz Ht. apply feq_iff in H as [H _]. rewrite Ht in H.
  assert (fval (w64 z) = XFin (IZR z)) as Ez by (apply (@fval_int f64 f64_ops f64_laws z); exact Hz). rewrite Ez in H. now injection H.
Qed.
Example C79_bound : always (fun x => n_lt (ritems_of ops24) x <= 3 < n_le (ritems_of ops24) x) (value_after lg64 24 2 ops24 (fdiv (w64 1) (w64 8))).
Proof.
  destruct ops24_proper as (H1 & H2 & H3 & H4). set (q := fdiv (w64 1) (w64 8)).
  destruct (@quantile64 q) as (r & Er & Hr); [vm_compute; reflexivity|vm_compute; reflexivity|].
  destruct (@C79_smallest f64 f64_ops f64_laws lg64 24 2 ops24 q r H1 H2 eq_refl H4) with (bs := 16) as (t & Ht & H); auto.
  - discriminate.
  - vm_compute. discriminate.
  - apply (@rank64 _ 3) in Ht; [|vm_compute; reflexivity|vm_compute; discriminate]. subst t.
    eapply always_mono; [apply H|].
    + rewrite INR_IZR_INZ. apply IZR_lt. vm_compute. reflexivity.
    + rewrite INR_IZR_INZ. apply IZR_lt. vm_compute. reflexivity.
    + cbn beta. intros x (_ & A & B). rewrite INR_IZR_INZ in A, B. apply le_IZR in A. apply lt_IZR in B. lia.
Qed.

(* ------------------------------------------------------------------ *)
(** * C80 *)
(** [err2 k o h N] is the rank error of C57, about (h + 1) N / min_sec.  The weights held need not add up to N, so near the top the
    error can count twice. *)
Theorem C80_worst : forall F (FO : FloatOps F) (FL : FloatLaws F) extra k (ops : list (rop F)) q r o h,
  proper2 k ops -> default_mode ops -> no_nan (ritems_of ops) -> fewer k (length (ritems_of ops)) -> ritems_of ops <> [] ->
  Nat.odd o = true -> o <= min_sec k + 1 -> (o + 1) ^ h * length (ritems_of ops) < 6 * N.to_nat k * (2 * o) ^ h ->
  (INR (length (ritems_of ops)) + err2 k o h (length (ritems_of ops)) <= IZR fint)%R -> fval q = XFin r -> (0 <= r <= 1)%R ->
  exists t, fval (fmul q (fofZ (Z.of_nat (length (ritems_of ops))))) = XFin t /\
    always (fun x => In x (ritems_of ops) /\
              (INR (n_lt (ritems_of ops) x) - err2 k o h (length (ritems_of ops)) <= t
               <= INR (n_le (ritems_of ops) x) + 2 * err2 k o h (length (ritems_of ops)))%R /\
              ((t <= INR (length (ritems_of ops)) - err2 k o h (length (ritems_of ops)))%R ->
               (t <= INR (n_le (ritems_of ops) x) + err2 k o h (length (ritems_of ops)))%R)) (value_after2 extra k ops q).
Proof. exact @value2_error. Qed.
Print Assumptions C80_worst.
Theorem C80_smallest : forall F (FO : FloatOps F) (FL : FloatLaws F) extra k (ops : list (rop F)) q r o h,
  proper2 k ops -> default_mode ops -> no_nan (ritems_of ops) -> fewer k (length (ritems_of ops)) -> ritems_of ops <> [] ->
  Nat.odd o = true -> o <= min_sec k + 1 -> (o + 1) ^ h * length (ritems_of ops) < 6 * N.to_nat k * (2 * o) ^ h ->
  (INR (length (ritems_of ops)) + err2 k o h (length (ritems_of ops)) <= IZR fint)%R -> fval q = XFin r -> (0 <= r <= 1)%R ->
  exists t, fval (fmul q (fofZ (Z.of_nat (length (ritems_of ops))))) = XFin t /\
    ((t < INR (3 * N.to_nat k))%R -> (t < INR (length (ritems_of ops)))%R ->
     always (fun x => In x (ritems_of ops) /\ (INR (n_lt (ritems_of ops) x) <= t < INR (n_le (ritems_of ops) x))%R) (value_after2 extra k ops q)).
Proof. exact @value2_smallest. Qed.
Print Assumptions C80_smallest.
(** the variance of C58 bounds the probability of an answer d ranks too high, and four times it that of one d ranks too low *)
Theorem C80_tail_high : forall F (FO : FloatOps F) (FL : FloatLaws F) extra k (ops : list (rop F)) q r o h,
  proper2 k ops -> default_mode ops -> no_nan (ritems_of ops) -> fewer k (length (ritems_of ops)) -> ritems_of ops <> [] ->
  Nat.odd o = true -> o <= min_sec k + 1 -> (o + 1) ^ h * length (ritems_of ops) < 6 * N.to_nat k * (2 * o) ^ h ->
  (INR (length (ritems_of ops)) + err2 k o h (length (ritems_of ops)) <= IZR fint)%R -> fval q = XFin r -> (0 <= r <= 1)%R ->
  forall d, (0 < d)%R ->
  exists t, fval (fmul q (fofZ (Z.of_nat (length (ritems_of ops))))) = XFin t /\
    (d ^ 2 * prob (fun x => rleb (t + d) (INR (n_lt (ritems_of ops) x))) (value_after2 extra k ops q)
     <= expect (fun s => INR (lv_compactions2 (plain (r2_levels s)))) (rc2_run extra k ops))%R.
Proof. exact @value2_tail_high. Qed.
Print Assumptions C80_tail_high.
Theorem C80_tail_low : forall F (FO : FloatOps F) (FL : FloatLaws F) extra k (ops : list (rop F)) q r o h,
  proper2 k ops -> default_mode ops -> no_nan (ritems_of ops) -> fewer k (length (ritems_of ops)) -> ritems_of ops <> [] ->
  Nat.odd o = true -> o <= min_sec k + 1 -> (o + 1) ^ h * length (ritems_of ops) < 6 * N.to_nat k * (2 * o) ^ h ->
  (INR (length (ritems_of ops)) + err2 k o h (length (ritems_of ops)) <= IZR fint)%R -> fval q = XFin r -> (0 <= r <= 1)%R ->
  forall d, (0 <= d)%R ->
  exists t, fval (fmul q (fofZ (Z.of_nat (length (ritems_of ops))))) = XFin t /\
    (d ^ 2 * prob (fun x => rleb (INR (n_le (ritems_of ops) x) + d) t) (value_after2 extra k ops q)
     <= 4 * expect (fun s => INR (lv_compactions2 (plain (r2_levels s)))) (rc2_run extra k ops))%R.
Proof. exact @value2_tail_low. Qed.
Print Assumptions C80_tail_low.

(** 300 items, k = 8, asked for the ranks 0, 10, 20, ...: the first three exact, then off by up to 9 *)
Definition values300 (coins : list bool) : list nat :=
  match run (do s <- rc2_run 0 8 ops300; mapM (fun q => rc2_est_value s (fdiv (w64 q) (w64 300))) (map (fun i => Z.of_nat (10 * i)) (seq 0 31))) coins with
  | Returned l => map (n_le (ritems_of ops300)) l | _ => [] end.
Example C80_nonvacuous :
  values300 (repeat false 20) = [1; 11; 21; 31; 41; 51; 61; 71; 80; 90; 100; 110; 120; 130; 140; 150;
        160; 170; 177; 189; 197; 209; 217; 227; 234; 244; 252; 263; 271; 283; 291] /\
  values300 (repeat true 20) = [1; 11; 21; 31; 41; 51; 61; 72; 82; 92; 102; 110; 123; 133; 144; 154;
        164; 174; 186; 194; 207; 215; 225; 237; 249; 258; 270; 278; 290; 298; 298].
Proof. vm_compute. split; reflexivity. Qed.
Example C80_bound : always (fun x => n_lt (ritems_of ops300) x <= 20 < n_le (ritems_of ops300) x) (value_after2 0 8 ops300 (fdiv (w64 20) (w64 300))).
Proof.
  destruct ops300_proper as (H1 & H2 & H3 & H4). set (q := fdiv (w64 20) (w64 300)).
  destruct (@quantile64 q) as (r & Er & Hr); [vm_compute; reflexivity|vm_compute; reflexivity|].
  destruct C57_nonvacuous as (N1 & N2 & N3).
  destruct (@C80_smallest f64 f64_ops f64_laws 0 8 ops300 q r 3 5 H1 H3 H4) as (t & Ht & H); auto.
  - left. vm_compute. discriminate.
  - discriminate.
  - rewrite N2. unfold err2. rewrite sec8. rewrite !INR_IZR_INZ. cbn [Z.of_nat Pos.of_succ_nat Pos.succ Nat.add pow]. change (@fint f64 f64_ops f64_laws) with 9007199254740992%Z. lra.
  - apply (@rank64 _ 20) in Ht; [|vm_compute; reflexivity|vm_compute; discriminate]. subst t.
    eapply always_mono; [apply H|].
    + rewrite INR_IZR_INZ. apply IZR_lt. vm_compute. reflexivity.
    + rewrite N2, INR_IZR_INZ. apply IZR_lt. vm_compute. reflexivity.
    + cbn beta. intros x (_ & A & B). rewrite INR_IZR_INZ in A, B. apply le_IZR in A. apply lt_IZR in B. lia.
Qed.
(** a large sketch: for k = 4096 and 10^8 items the error, linear in the number of items, is at most 1.4% of it *)
Example C80_size : (1025 <= min_sec 4096 + 1) /\ (err2 4096 1025 13 (10 ^ 2) <= 14 / 1000 * INR (10 ^ 2))%R /\
  (1026 ^ 13 * 10 ^ 8 < 6 * 4096 * 2050 ^ 13)%Z.
Proof.
  assert (min_sec 4096 = 1024) as E by (vm_compute; reflexivity). rewrite E. split; [lia|]. split; [|vm_compute; reflexivity].
  unfold err2. rewrite E, !INR_IZR_INZ. change (Z.of_nat 1025) with 1025%Z. change (Z.of_nat 1024) with 1024%Z. change (Z.of_nat (10 ^ 2)) with 100%Z. cbn [pow Nat.add]. lra.
Qed.
