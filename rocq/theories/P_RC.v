(** Properties C38-C47: RCSketch. *)
From Coq Require Import List Arith ZArith NArith Lia Bool Permutation Sorted Reals Lra.
From Flocq Require Import Core BinarySingleNaN.
From Verif Require Import Base Floats XReal IEEE Digest Spec FloatFacts History TDigest RCSketch RCProofs RCHist RCRank RCExpect RCTop RCQuery RCObs RCObs2 P_Parallel P_TDigest.
Set Implicit Arguments.
Local Open Scope nat_scope.

(** [rc_params lg n k]: k >= 1, [lg] = [|x| x.log2().ceil()] is exact on n/k, the sizes are exact floats.
    [proper lg n k ops]: that, no NaN, and either at most n items in all (n/k < 2^32) or fast compaction only. *)

Definition lg64 : f64 -> f64 := lg_of.
Definition adds (l : list Z) : list (rop f64) := map (fun z => RAdd (w64 z)) l.
Definition bufs (l : list Z) : list (rop f64) := [RBuf (map w64 l)].
Lemma params64 n k : 1 <= k -> k <= n -> Z.leb (Z.of_nat (2 * k * Nat.log2_up (n / k))) (2 ^ 53) = true ->
  Z.leb (Z.of_nat n) (2 ^ 53) = true -> Z.leb (Z.of_nat (2 * k)) (2 ^ 53) = true -> rc_params lg64 n k.
Proof.
  intros Hk Hn H1 H2 H3. apply Z.leb_le in H1, H2, H3. apply lg_of_params; auto. vm_compute. reflexivity.
Qed.
Definition numbers (l : list f64) : bool := forallb (fun x => negb (fisnan x)) l.
Lemma numbers_ok l : numbers l = true -> no_nan l.
Proof.
  intros H. apply Forall_forall. intros x Hx. unfold numbers in H. rewrite forallb_forall in H. specialize (H x Hx).
  now destruct (fisnan x).
Qed.
(** k = 2, declared length 24: buffers of 16; 24 items in descending order *)
Definition ops24 : list (rop f64) := bufs [24; 23; 22; 21; 20; 19; 18; 17; 16; 15]%Z ++ adds [14; 13; 12; 11; 10; 9; 8; 7; 6; 5; 4; 3; 2; 1]%Z.
Example ops24_proper : proper lg64 24 2 ops24 /\ default_mode ops24 /\ few_levels 24 2 ops24 /\ few_levels31 24 2 ops24.
Proof.
  split; [|split; [|split]].
  - split; [|split].
    + apply params64; try lia; vm_compute; reflexivity.
    + right. split; [vm_compute; lia|vm_compute; discriminate].
    + apply numbers_ok. vm_compute. reflexivity.
  - repeat constructor.
  - left. split; vm_compute; reflexivity.
  - right. vm_compute. reflexivity.
Qed.
(** the rank of [v] for given coins *)
Definition rank24 (ops : list (rop f64)) (v : Z) (coins : list bool) : option Z :=
  match run (rank_after lg64 24 2 ops (w64 v)) coins with Returned z => Some z | _ => None end.

(* ------------------------------------------------------------------ *)
(** * C38 *)
Theorem C38_within : forall F (FO : FloatOps F) (FL : FloatLaws F) lg n k (ops : list (rop F)),
  proper lg n k ops -> default_method ops ->
  always (fun s => rc_count s = Z.of_nat (length (ritems_of ops))) (rc_run lg n k ops).
Proof. exact (fun F FO FL lg n k ops Hp Hm => @always_mono _ _ _ _ (@rc_run_always F FO FL lg n k ops Hp Hm) (fun s H => proj2 H)). Qed.
Print Assumptions C38_within.

(** through the [Digest] interface, with queries anywhere: [est_quantile_at_value] any time, [est_value_at_quantile] on a
    non-empty sketch (k even, or 5^30 (n-1) < 7^30 (buffer_size-1)) *)
Theorem C38_digest : forall F (FO : FloatOps F) (FL : FloatLaws F) lg n k (ops : list (op F)),
  rc_params lg n k -> (N.of_nat (n / k) <= u32_max)%N -> ok_hist (rc_allowed n k) [] ops ->
  always (fun r => rc_count (fst r) = Z.of_nat (length (items_of ops))) (do s <- rc_new lg n k; exec rc_digest s ops).
Proof. exact @rc_digest_always. Qed.
Print Assumptions C38_digest.

Example C38_nonvacuous : match run (rc_run lg64 24 2 ops24) (repeat true 9) with
  | Returned s => map (fun l => length (fst l)) (rc_levels s) = [10; 7] /\ map snd (rc_levels s) = [4; 0]%N /\ rc_count s = 24%Z
  | _ => False end.
Proof. vm_compute. repeat split. Qed.
Definition hist24 : list (op f64) := [Quant (w64 3); AddBuf (map w64 [9; 8; 7; 6; 5; 4; 3; 2; 1; 10; 11; 12; 13; 14; 15; 16; 17; 18]%Z); Val (w64 0); Quant (w64 18); Add (w64 19); Val (w64 1)].
Example C38_digest_nonvacuous : ok_hist (rc_allowed 24 2) [] hist24 /\
  match run (do s <- rc_new lg64 24 2; exec rc_digest s hist24) (repeat false 9) with
  | Returned (_, l) => all_same l [fdiv f0 f0; w64 1; w64 1; w64 19] | _ => false end = true.
Proof.
  split; [|vm_compute; reflexivity].
  cbn [ok_hist hist24 rc_allowed].
  repeat match goal with
  | |- _ /\ _ => split
  | |- True => exact I
  | |- _ \/ _ => left; reflexivity
  | |- no_nan _ => apply numbers_ok; vm_compute; reflexivity
  | |- fisnan _ = false => vm_compute; reflexivity
  | |- _ <= _ => vm_compute; lia
  | |- _ <> [] => let H := fresh in intros H; apply (f_equal (@length f64)) in H; vm_compute in H; discriminate
  end.
Qed.

(* ------------------------------------------------------------------ *)
(** * C39 *)
Fixpoint must_panicb {A} (m : M A) : bool :=
  match m with Panic => true | Flip f => must_panicb (f false) && must_panicb (f true) | _ => false end.
Lemma must_panicb_ok {A} (m : M A) : must_panicb m = true -> must_panic m.
Proof.
  induction m as [a| | |f IH]; cbn [must_panicb must_panic]; try discriminate; auto.
  intros H b. apply andb_true_iff in H. destruct b; apply IH; tauto.
Qed.
Fixpoint returnsb {A} (m : M A) : bool :=
  match m with Ret _ => true | Flip f => returnsb (f false) && returnsb (f true) | _ => false end.
Lemma returnsb_ok {A} (m : M A) : returnsb m = true -> always (fun _ => True) m.
Proof.
  induction m as [a| | |f IH]; cbn [returnsb always]; try discriminate; auto.
  intros H b. apply andb_true_iff in H. destruct b; apply IH; tauto.
Qed.
(** Refuted: declared for one item, the sketch panics on the sixth whatever the coins, *)
Theorem C39_refuted : exists n k (l : list Z), must_panic (rc_run lg64 n k (adds l)) /\ length l = 6 /\
  always (fun _ => True) (rc_run lg64 n k (adds (firstn 5 l))).
Proof.
  exists 1, 1, [1; 2; 3; 4; 5; 6]%Z. split; [apply must_panicb_ok; vm_compute; reflexivity|split; [reflexivity|]].
  apply returnsb_ok. vm_compute. reflexivity.
Qed.
Print Assumptions C39_refuted.
(** and no sketch used with default compaction survives more than buffer_size + k 2^(buffer_size/k + 1) items. *)
Theorem C39_beyond_refuted : forall F (FO : FloatOps F) (FL : FloatLaws F) lg n k (ops : list (rop F)) bs,
  rc_params lg n k -> non_fast ops -> calc_buffer_size lg n k = Ret bs ->
  bs + k * 2 ^ (bs / k + 1) <= length (ritems_of ops) -> whenever (fun _ => False) (rc_run lg n k ops).
Proof. exact @beyond. Qed.
Print Assumptions C39_beyond_refuted.
Example C39_nonvacuous : rc_params lg64 1 1 /\ calc_buffer_size lg64 1 1 = Ret 2 /\ 2 + 1 * 2 ^ (2 / 1 + 1) = 10.
Proof. split; [apply params64; auto|split; vm_compute; reflexivity]. Qed.

(* ------------------------------------------------------------------ *)
(** * C40 *)
(** Refuted for odd k: after two items the rank of the larger can be 3, its quantile 1.5. *)
Theorem C40_odd_refuted : exists n k (l : list Z) v coins,
  match run (do s <- rc_run lg64 n k (adds l); do z <- interpolate_rank s (w64 v); do a <- rc_est_quantile s (w64 v); Ret (z, a)) coins with
  | Returned (z, a) => (z =? 3)%Z && feq a (fdiv (w64 3) (w64 2)) | _ => false end = true /\ length l = 2.
Proof. exists 2, 1, [1; 2]%Z, 2%Z, [false]. split; vm_compute; reflexivity. Qed.
Print Assumptions C40_odd_refuted.
(** For even k: the weights sum to the count, whatever the calls and the coins; *)
Theorem C40_even_weight_partial : forall F (FO : FloatOps F) (FL : FloatLaws F) lg n k (ops : list (rop F)), rc_params lg n k -> Nat.even k = true ->
  whenever (fun s => lv_weight (rc_levels s) = length (ritems_of ops)) (rc_run lg n k ops).
Proof. exact @even_weight. Qed.
Print Assumptions C40_even_weight_partial.
(** the estimated quantile is in [0,1], 1 above all items and 0 below all of them. *)
Theorem C40_even_quantile_partial : forall F (FO : FloatOps F) (FL : FloatLaws F) lg n k (ops : list (rop F)) v,
  proper lg n k ops -> default_method ops -> Nat.even k = true -> few_levels31 n k ops -> ritems_of ops <> [] ->
  (Z.of_nat (length (ritems_of ops)) <= fint)%Z ->
  always (fun a => exists r, fval a = XFin r /\ (0 <= r <= 1)%R /\
            ((forall x, In x (ritems_of ops) -> fle x v = true) -> r = 1%R) /\
            ((forall x, In x (ritems_of ops) -> fle x v = false) -> r = 0%R)) (quantile_after lg n k ops v).
Proof. exact @quantile_at_most_one. Qed.
Print Assumptions C40_even_quantile_partial.
Example C40_nonvacuous : match run (rc_run lg64 24 2 ops24) (repeat false 9) with
  | Returned s => lv_weight (rc_levels s) = 24 /\ length (rc_levels s) = 2 /\ Nat.even 2 = true | _ => False end.
Proof. vm_compute. auto. Qed.

(* ------------------------------------------------------------------ *)
(** * C41 *)
(** half of the buffer is protected: more than the statement asks for default compaction, and the same for fast compaction *)
Theorem C41_smallest : forall F (FO : FloatOps F) (FL : FloatLaws F) lg n k (ops : list (rop F)) v bs,
  proper lg n k ops -> default_method ops -> few_levels n k ops ->
  calc_buffer_size lg n k = Ret bs -> n_le (ritems_of ops) v <= bs / 2 ->
  always (fun z => z = Z.of_nat (n_le (ritems_of ops) v)) (rank_after lg n k ops v).
Proof. exact @rank_smallest. Qed.
Print Assumptions C41_smallest.
Example C41_nonvacuous : calc_buffer_size lg64 24 2 = Ret 16 /\ n_le (ritems_of ops24) (w64 8) = 16 / 2 /\
  map (fun v => rank24 ops24 v (repeat false 9)) [1; 4; 8; 15; 17]%Z = map Some [1; 4; 8; 16; 18]%Z /\
  map (fun v => rank24 ops24 v (repeat true 9)) [1; 4; 8; 15; 17]%Z = map Some [1; 4; 8; 14; 16]%Z.
Proof. repeat split; vm_compute; reflexivity. Qed.

(* ------------------------------------------------------------------ *)
(** * C42 *)
Theorem C42_unbiased : forall F (FO : FloatOps F) (FL : FloatLaws F) lg n k (ops : list (rop F)) v,
  proper lg n k ops -> default_method ops -> few_levels n k ops ->
  expect IZR (rank_after lg n k ops v) = INR (n_le (ritems_of ops) v).
Proof. exact @rank_unbiased. Qed.
Print Assumptions C42_unbiased.
(** the single answers are not exact: two outcomes of the coins disagree, around the true rank 15 *)
Example C42_nonvacuous : n_le (ritems_of ops24) (w64 15) = 15 /\
  rank24 ops24 15 (repeat false 9) = Some 16%Z /\ rank24 ops24 15 (repeat true 9) = Some 14%Z.
Proof. repeat split; vm_compute; reflexivity. Qed.

(* ------------------------------------------------------------------ *)
(** * C43 *)
(** [lv_compactions]: sum of 2^level * compaction counter *)
Theorem C43_counters : forall F (FO : FloatOps F) (FL : FloatLaws F) lg n k (ops : list (rop F)) v, proper lg n k ops -> default_mode ops ->
  always (fun s => (Z.abs (Z.of_nat (lv_rank (rc_levels s) v) - Z.of_nat (n_le (ritems_of ops) v))
                    <= Z.of_nat (lv_compactions (rc_levels s)))%Z) (rc_run lg n k ops).
Proof. exact @rank_error_counters. Qed.
Print Assumptions C43_counters.
(** explicitly, for even k: at most N/k per level that can have compacted *)
Theorem C43_even : forall F (FO : FloatOps F) (FL : FloatLaws F) lg n k (ops : list (rop F)) v h bs,
  proper lg n k ops -> default_mode ops -> few_levels n k ops -> Nat.even k = true ->
  calc_buffer_size lg n k = Ret bs -> length (ritems_of ops) < bs * 2 ^ h ->
  always (fun z => (Z.of_nat k * Z.abs (z - Z.of_nat (n_le (ritems_of ops) v)) <= Z.of_nat (h * length (ritems_of ops)))%Z)
         (rank_after lg n k ops v).
Proof. exact @rank_error_even. Qed.
Print Assumptions C43_even.
(** and for any k *)
Theorem C43_any : forall F (FO : FloatOps F) (FL : FloatLaws F) lg n k (ops : list (rop F)) v h bs,
  proper lg n k ops -> default_mode ops -> few_levels n k ops ->
  calc_buffer_size lg n k = Ret bs -> 5 ^ h * (length (ritems_of ops) - 1) < (bs - 1) * 7 ^ h ->
  always (fun z => (Z.of_nat k * Z.abs (z - Z.of_nat (n_le (ritems_of ops) v)) <= Z.of_nat ((2 ^ (h + 1) - 1) * length (ritems_of ops)))%Z)
         (rank_after lg n k ops v).
Proof. exact @rank_error_any. Qed.
Print Assumptions C43_any.
Example C43_nonvacuous : length (ritems_of ops24) < 16 * 2 ^ 1 /\ 5 ^ 2 * (length (ritems_of ops24) - 1) < (16 - 1) * 7 ^ 2 /\
  match run (rc_run lg64 24 2 ops24) (repeat false 9) with
  | Returned s => lv_compactions (rc_levels s) = 4 /\ lv_rank (rc_levels s) (w64 15) = 16 | _ => False end.
Proof. vm_compute. repeat split; lia. Qed.

(* ------------------------------------------------------------------ *)
(** * C44 *)
(** [lv_compactions2]: sum of 4^level * compaction counter *)
Theorem C44_counters : forall F (FO : FloatOps F) (FL : FloatLaws F) lg n k (ops : list (rop F)) v,
  proper lg n k ops -> default_mode ops -> few_levels n k ops ->
  (expect (fun z => (IZR z - INR (n_le (ritems_of ops) v)) ^ 2) (rank_after lg n k ops v)
   <= expect (fun s => INR (lv_compactions2 (rc_levels s))) (rc_run lg n k ops))%R.
Proof. exact @rank_variance_counters. Qed.
Print Assumptions C44_counters.
(** explicitly, for even k: k * buffer_size * MSE <= 2 N^2, *)
Theorem C44_even : forall F (FO : FloatOps F) (FL : FloatLaws F) lg n k (ops : list (rop F)) v bs,
  proper lg n k ops -> default_mode ops -> few_levels n k ops -> Nat.even k = true -> calc_buffer_size lg n k = Ret bs ->
  (INR k * INR bs * expect (fun z => (IZR z - INR (n_le (ritems_of ops) v)) ^ 2) (rank_after lg n k ops v)
   <= 2 * INR (length (ritems_of ops)) ^ 2)%R.
Proof. exact @rank_variance_total. Qed.
Print Assumptions C44_even.
(** and the tail *)
Theorem C44_tail : forall F (FO : FloatOps F) (FL : FloatLaws F) lg n k (ops : list (rop F)) v bs t,
  proper lg n k ops -> default_mode ops -> few_levels n k ops -> Nat.even k = true -> calc_buffer_size lg n k = Ret bs ->
  (INR t ^ 2 * (INR k * INR bs) * prob (fun z => Z.of_nat t <=? Z.abs (z - Z.of_nat (n_le (ritems_of ops) v)))%Z (rank_after lg n k ops v)
   <= 2 * INR (length (ritems_of ops)) ^ 2)%R.
Proof. exact @rank_tail. Qed.
Print Assumptions C44_tail.
Example C44_nonvacuous : (32 * expect (fun z => (IZR z - 15) ^ 2) (rank_after lg64 24 2 ops24 (w64 15)) <= 1152)%R.
Proof.
  destruct ops24_proper as (H1 & H2 & H3 & H4).
  pose proof (@C44_even f64 f64_ops f64_laws lg64 24 2 ops24 (w64 15) 16 H1 H2 H3 eq_refl) as H.
  assert (calc_buffer_size lg64 24 2 = Ret 16) as E by (vm_compute; reflexivity). specialize (H E).
  replace (n_le (ritems_of ops24) (w64 15)) with 15 in H by (vm_compute; reflexivity).
  replace (length (ritems_of ops24)) with 24 in H by (vm_compute; reflexivity).
  rewrite (INR_IZR_INZ 15), (INR_IZR_INZ 24), (INR_IZR_INZ 2), (INR_IZR_INZ 16) in H. cbn [Z.of_nat Pos.of_succ_nat Pos.succ] in H.
  lra.
Qed.

(* ------------------------------------------------------------------ *)
(** * C45 *)
(** k even.  [value_spec lv t x]: x is the smallest held value whose rank exceeds t, or the largest held value if none does. *)
Theorem C45_even_partial : forall F (FO : FloatOps F) (FL : FloatLaws F) lg n k (ops : list (rop F)),
  proper lg n k ops -> default_method ops -> Nat.even k = true -> few_levels31 n k ops -> ritems_of ops <> [] ->
  (Z.of_nat (length (ritems_of ops)) <= fint)%Z ->
  always (fun s =>
    (forall v1 v2, fle v1 v2 = true ->
       exists a1 a2, rc_est_quantile s v1 = Ret a1 /\ rc_est_quantile s v2 = Ret a2 /\ fle a1 a2 = true) /\
    (forall q, exists x, rc_est_value s q = Ret x /\ In x (ritems_of ops) /\
       value_spec (rc_levels s) (fval (fmul q (fofZ (Z.of_nat (length (ritems_of ops)))))) x) /\
    (forall q1 q2 r1 r2, fval q1 = XFin r1 -> fval q2 = XFin r2 -> (r1 <= r2)%R ->
       exists x1 x2, rc_est_value s q1 = Ret x1 /\ rc_est_value s q2 = Ret x2 /\ fle x1 x2 = true)) (rc_run lg n k ops).
Proof.
  exact (fun F FO FL lg n k ops Hp Hm He Hf Hne Hi => @always_mono _ _ _ _ (@even_always F FO FL lg n k ops Hp Hm He Hf)
    (fun s Hs => conj (fun v1 v2 => @quantile_mono F FO FL _ s v1 v2 Hs Hne Hi)
                (conj (fun q => @even_state_value F FO FL _ s q Hs Hne Hi)
                      (fun q1 q2 r1 r2 => @value_mono F FO FL _ s q1 q2 r1 r2 Hs Hne Hi)))).
Qed.
Print Assumptions C45_even_partial.
(** Refuted for odd k: with fast compaction and adverse coins 33 items reach 33 levels, and the shift in
    [sorted_weighted_values] overflows. *)
Theorem C45_levels_refuted : exists n k (l : list Z) coins,
  let ops := map (fun z => RCustom [w64 z] true Default) l in
  match run (do s <- rc_run lg64 n k ops; Ret (length (rc_levels s))) coins with Returned j => j = 33 | _ => False end /\
  match run (value_after lg64 n k ops (w64 0)) coins with Panicked => length l = 33 | _ => False end.
Proof. exists 1, 1, (map Z.of_nat (seq 1 33)), (repeat false 600). split; vm_compute; reflexivity. Qed.
Print Assumptions C45_levels_refuted.
Example C45_nonvacuous : match run (do s <- rc_run lg64 24 2 ops24; mapM (fun q => rc_est_value s (fdiv (w64 q) (w64 24))) [0; 7; 14; 15; 16; 23; 24]%Z) (repeat false 9) with
  | Returned l => all_same l (map w64 [1; 8; 15; 15; 17; 23; 23]%Z) | _ => false end = true.
Proof. vm_compute. reflexivity. Qed.

(* ------------------------------------------------------------------ *)
(** * C46 *)
Theorem C46_buffers : forall F (FO : FloatOps F) (FL : FloatLaws F) lg n k (ops : list (rop F)) bs,
  proper lg n k ops -> default_method ops -> calc_buffer_size lg n k = Ret bs ->
  always (fun s => Forall (fun l => length (fst l) < bs) (rc_levels s)) (rc_run lg n k ops).
Proof. exact @buffers_small. Qed.
Print Assumptions C46_buffers.
Theorem C46_levels_even : forall F (FO : FloatOps F) (FL : FloatLaws F) lg n k (ops : list (rop F)) bs h,
  rc_params lg n k -> Nat.even k = true -> calc_buffer_size lg n k = Ret bs ->
  length (ritems_of ops) < bs * 2 ^ h -> whenever (fun s => length (rc_levels s) <= h + 1) (rc_run lg n k ops).
Proof. exact @levels_even. Qed.
Print Assumptions C46_levels_even.
(** any k, without fast compaction *)
Theorem C46_levels_any : forall F (FO : FloatOps F) (FL : FloatLaws F) lg n k (ops : list (rop F)) bs h,
  rc_params lg n k -> non_fast ops -> calc_buffer_size lg n k = Ret bs ->
  5 ^ h * (length (ritems_of ops) - 1) < (bs - 1) * 7 ^ h -> whenever (fun s => length (rc_levels s) <= h + 1) (rc_run lg n k ops).
Proof. exact @levels_any. Qed.
Print Assumptions C46_levels_any.
(** odd k with fast compaction can need one level per item *)
Theorem C46_fast_odd_refuted : exists n k (l : list Z) coins,
  match run (do s <- rc_run lg64 n k (map (fun z => RCustom [w64 z] true Default) l); Ret (length (rc_levels s))) coins with
  | Returned j => j = length l | _ => False end /\ length l = 20.
Proof. exists 1, 1, (map Z.of_nat (seq 1 20)), (repeat false 600). split; vm_compute; reflexivity. Qed.
Print Assumptions C46_fast_odd_refuted.
Example C46_nonvacuous : match run (rc_run lg64 24 2 ops24) (repeat false 9) with
  | Returned s => length (rc_levels s) = 1 + 1 /\ length (ritems_of ops24) < 16 * 2 ^ 1 | _ => False end.
Proof. vm_compute. split; [reflexivity|lia]. Qed.

(* ------------------------------------------------------------------ *)
(** * C47 *)
(** fast compaction: any number of items *)
Theorem C47_fast : forall F (FO : FloatOps F) (FL : FloatLaws F) lg n k (ops : list (rop F)),
  rc_params lg n k -> fast_mode ops -> default_method ops -> no_nan (ritems_of ops) ->
  always (fun s => rc_count s = Z.of_nat (length (ritems_of ops))) (rc_run lg n k ops).
Proof. exact (fun F FO FL lg n k ops Hp Hf Hm Hn => @C38_within F FO FL lg n k ops (conj Hp (conj (or_introl Hf) Hn)) Hm). Qed.
Print Assumptions C47_fast.
(** averaging (and any mixture of methods): every held value lies between any bounds of the items (if their doubles are exact) *)
Theorem C47_average : forall F (FO : FloatOps F) (FL : FloatLaws F) lg n k (ops : list (rop F)) a b,
  rc_params lg n k -> in_range n k ops -> Forall (within a b) (ritems_of ops) ->
  fexact a -> fexact b -> fexact (2 * a) -> fexact (2 * b) ->
  always (fun s => rc_count s = Z.of_nat (length (ritems_of ops)) /\ Forall (within a b) (lv_items (rc_levels s))) (rc_run lg n k ops).
Proof. exact @held_within. Qed.
Print Assumptions C47_average.
Theorem C47_average_value : forall F (FO : FloatOps F) (FL : FloatLaws F) lg n k (ops : list (rop F)) a b q,
  rc_params lg n k -> in_range n k ops -> Forall (within a b) (ritems_of ops) ->
  fexact a -> fexact b -> fexact (2 * a) -> fexact (2 * b) -> Nat.even k = true -> few_levels31 n k ops -> ritems_of ops <> [] ->
  always (within a b) (value_after lg n k ops q).
Proof. exact @value_within. Qed.
Print Assumptions C47_average_value.
Theorem C47_average_weight : forall F (FO : FloatOps F) (FL : FloatLaws F) lg n k (ops : list (rop F)), rc_params lg n k ->
  Forall (fun o => rmeth o = AverageNeighbour) ops ->
  whenever (fun s => lv_weight (rc_levels s) <= length (ritems_of ops)) (rc_run lg n k ops).
Proof. exact @average_weight. Qed.
Print Assumptions C47_average_weight.
(** the bound on the doubles is needed: averaging the largest f64 with itself gives infinity *)
Definition max64 : f64 := w64 (2 ^ 1024 - 2 ^ 971).
Theorem C47_overflow_refuted : exists n k (l : list f64), forallb (fun x => fle x max64) l = true /\ flt max64 (fdiv (w64 1) (w64 0)) = true /\
  match run (value_after lg64 n k [RCustom l false AverageNeighbour] (w64 1)) [] with
  | Returned a => flt max64 a | _ => false end = true.
Proof. exists 4, 2, (repeat max64 4). repeat split; vm_compute; reflexivity. Qed.
Print Assumptions C47_overflow_refuted.
Definition ops_fast : list (rop f64) := map (fun z => RCustom [w64 z] true Default) (map Z.of_nat (seq 1 40)).
Definition ops_avg : list (rop f64) := [RCustom (map w64 (map Z.of_nat (seq 1 24))) false AverageNeighbour].
Example C47_nonvacuous : fast_mode ops_fast /\ default_method ops_fast /\ rc_params lg64 8 2 /\
  match run (rc_run lg64 8 2 ops_fast) (repeat true 40) with Returned s => map (fun l => length (fst l)) (rc_levels s) = [4; 6; 6] | _ => False end /\
  match run (rc_run lg64 24 2 ops_avg) [] with Returned s => map (fun l => length (fst l)) (rc_levels s) = [10; 7] | _ => False end.
Proof.
  split; [repeat constructor|]. split; [repeat constructor|]. split; [apply params64; try lia; vm_compute; reflexivity|].
  split; vm_compute; reflexivity.
Qed.
