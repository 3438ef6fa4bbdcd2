(** Property C92: the repository's own unit tests of the RC sketches, for all coin flips. *)
From Coq Require Import List Arith ZArith NArith Lia Bool Reals Lra.
From Verif Require Import Base Floats IEEE Digest Spec FloatFacts History TDigest RCSketch RCProofs RCHist RCTop RCQuery RCObs RCObs2 RCValue RCBits RC2 RC2Top P_Parallel P_RC P_RCValue.
Set Implicit Arguments.

(** [brank k bs bits] (RCBits.v) is a sketch of bits, one per item: "is it <= v?".  It flips a coin only where this makes a difference.
    Its rank has exactly the distribution of the rank of v, for every history. *)
Theorem C92_rank : forall F (FO : FloatOps F) (FL : FloatLaws F) lg n k bs (ops : list (rop F)) v (u : Z -> R),
  fisnan v = false -> calc_buffer_size lg n k = Ret bs -> no_nan (ritems_of ops) -> Forall (fun o => rmeth o = Default) ops ->
  expect u (rank_after lg n k ops v) = expect u (brank k bs (map (bop v) ops)).
Proof. exact @bits_expect. Qed.
Print Assumptions C92_rank.

Theorem C92_rank_always : forall F (FO : FloatOps F) (FL : FloatLaws F) lg n k bs (ops : list (rop F)) v (X : Z -> Prop),
  fisnan v = false -> calc_buffer_size lg n k = Ret bs -> no_nan (ritems_of ops) -> Forall (fun o => rmeth o = Default) ops ->
  always X (brank k bs (map (bop v) ops)) -> always X (rank_after lg n k ops v).
Proof. exact @bits_always. Qed.
Print Assumptions C92_rank_always.

(** ranks always below the one sought at lo, always above it at hi: the value answered is in (lo, hi] *)
Theorem C92_value : forall F (FO : FloatOps F) (FL : FloatLaws F) lg n k bs (ops : list (rop F)) q r lo hi,
  proper lg n k ops -> default_mode ops -> Nat.even k = true -> few_levels31 n k ops -> ritems_of ops <> [] ->
  (Z.of_nat (length (ritems_of ops)) <= fint)%Z -> fval q = XFin r -> (0 <= r <= 1)%R -> fisnan lo = false -> fisnan hi = false -> calc_buffer_size lg n k = Ret bs ->
  exists t, fval (fmul q (fofZ (Z.of_nat (length (ritems_of ops))))) = XFin t /\
    (always (fun z => (IZR z < t)%R) (brank k bs (map (bop lo) ops)) ->
     always (fun x => In x (ritems_of ops) /\ flt lo x = true) (value_after lg n k ops q)) /\
    (always (fun z => (t < IZR z)%R) (brank k bs (map (bop hi) ops)) ->
     always (fun x => In x (ritems_of ops) /\ fle x hi = true) (value_after lg n k ops q)).
Proof. exact @bits_value. Qed.
Print Assumptions C92_value.

(* ------------------------------------------------------------------ *)
(** * rc_sketch.rs:317-418: [insert_multiple_values], [insert_descending_multiple_values] and their batch variants *)
Definition asc (n : nat) : list Z := map Z.of_nat (seq 0 n).
Definition four : list (list (rop f64)) := [adds (asc 1000); adds (rev (asc 1000)); bufs (asc 1000); bufs (rev (asc 1000))].
Definition test_ranks (v r e : Z) (ops : list (rop f64)) : bool :=
  forallb (fun p => match snd p with Some z => (Z.abs (z - r) <=? e)%Z | None => false end) (leaves 0 (brank 8 112 (map (bop (w64 v)) ops))).
Lemma four_nn ops : In ops four -> no_nan (ritems_of ops) /\ Forall (fun o => rmeth o = Default) ops.
Proof.
  assert (Forall (fun ops => numbers (ritems_of ops) = true /\ forallb (fun o => match rmeth o with Default => true | _ => false end) ops = true) four) as H.
  { unfold four. repeat (apply Forall_cons; [split; vm_compute; reflexivity|]). apply Forall_nil. }
  rewrite Forall_forall in H. intros Hi. destruct (H _ Hi) as [H1 H2]. split; [now apply numbers_ok|]. rewrite forallb_forall in H2. apply Forall_forall. intros o Ho.
  specialize (H2 o Ho). now destruct (rmeth o).
Qed.
Lemma test_ranks_ok v r e ops : In ops four -> fisnan (w64 v) = false -> test_ranks v r e ops = true ->
  always (fun z => (Z.abs (z - r) <= e)%Z) (rank_after lg64 1024 8 ops (w64 v)).
Proof.
  intros Hi Hv H. destruct (four_nn Hi) as [Hn Hm]. apply (@bits_always f64 f64_ops f64_laws lg64 1024 8 112 ops (w64 v)); [exact Hv|vm_compute; reflexivity|exact Hn|exact Hm|].
  apply leaves_always with (d := 0). unfold test_ranks in H. rewrite forallb_forall in H. apply Forall_forall. intros p Hp. specialize (H p Hp).
  destruct (snd p); [now apply Z.leb_le|discriminate].
Qed.
Definition asserted : list (Z * Z * Z) := [(0, 1, 0); (1, 2, 0); (10, 11, 0); (500, 500, 10); (1000, 1000, 0)]%Z.
Lemma unit_tests_always ops : In ops four ->
  Forall (fun a => let '(v, r, e) := a in always (fun z => (Z.abs (z - r) <= e)%Z) (rank_after lg64 1024 8 ops (w64 v))) asserted.
Proof.
  intros Hi. assert (Forall (fun ops => forallb (fun a => let '(v, r, e) := a in test_ranks v r e ops) asserted = true) four) as H.
  { unfold four. repeat (apply Forall_cons; [vm_compute; reflexivity|]). apply Forall_nil. }
  rewrite Forall_forall in H. specialize (H _ Hi). rewrite forallb_forall in H. apply Forall_forall. intros [[v r] e] Ha. apply (@test_ranks_ok v r e ops Hi); [|exact (H _ Ha)].
  repeat (destruct Ha as [E|Ha]; [injection E as <- <- <-; vm_compute; reflexivity|]). contradiction.
Qed.
(** the assertions on the ranks of 0, 1, 10 (exact), 500 (within 10) and 1000 (within 30; in fact exact) hold whatever the coins *)
Theorem C92_unit_tests : forall ops, In ops four ->
  Forall (fun a => let '(v, r, e) := a in always (fun z => (Z.abs (z - r) <= e)%Z) (rank_after lg64 1024 8 ops (w64 v)))
    [(0, 1, 0); (1, 2, 0); (10, 11, 0); (500, 500, 10); (1000, 1000, 0)]%Z.
Proof. exact unit_tests_always. Qed.
Print Assumptions C92_unit_tests.
(** the rank of 500 (501 items are <= 500) is 500 with probability 3/4 and 504 with probability 1/4 *)
Definition the_leaves : list (nat * option Z) := [(2, Some 504%Z); (2, Some 500%Z); (1, Some 500%Z)].
Example C92_distribution : forall u : Z -> R, expect u (rank_after lg64 1024 8 (bufs (asc 1000)) (w64 500)) = (3 / 4 * u 500%Z + / 4 * u 504%Z)%R.
Proof.
  intros u. assert (In (bufs (asc 1000)) four) as Hi by (unfold four; right; right; left; reflexivity). destruct (four_nn Hi) as [Hn Hm].
  rewrite (@bits_expect f64 f64_ops f64_laws lg64 1024 8 112 (bufs (asc 1000)) (w64 500) u); [|vm_compute; reflexivity|vm_compute; reflexivity|exact Hn|exact Hm].
  pose proof (leaves_expect u (brank 8 112 (map (bop (w64 500)) (bufs (asc 1000)))) 0) as H. cbn [pow] in H.
  assert (leaves 0 (brank 8 112 (map (bop (w64 500)) (bufs (asc 1000)))) = the_leaves) as E by (vm_compute; reflexivity).
  rewrite E in H. unfold the_leaves, weigh in H. cbn [map fold_right fst snd pow] in H. lra.
Qed.

(* ------------------------------------------------------------------ *)
(** * rc_sketch.rs:617-627: [est_value_at_quantile], k = 16 *)
Definition b16 : list (rop f64) := bufs (asc 1000).
Lemma b16_proper : proper lg64 1024 16 b16 /\ default_mode b16 /\ few_levels31 1024 16 b16 /\ ritems_of b16 = map w64 (asc 1000).
Proof.
  assert (ritems_of b16 = map w64 (asc 1000)) as E by (unfold b16, bufs, ritems_of; cbn [map concat ritems]; apply app_nil_r).
  assert (length (ritems_of b16) = 1000) as EL by (rewrite E; unfold asc; now rewrite !map_length, seq_length).
  split; [|split; [|split; [|exact E]]].
  - split; [|split].
    + apply params64; try lia; vm_compute; reflexivity.
    + right. rewrite EL. split; [lia|vm_compute; discriminate].
    + apply four_nn. unfold four, b16. right; right; left. reflexivity.
  - repeat constructor.
  - right. rewrite EL. reflexivity.
Qed.
(** all outcomes below or all above [t] *)
Definition all_below (t : Z) (m : M Z) : bool := forallb (fun p => match snd p with Some z => (z <? t)%Z | None => false end) (leaves 0 m).
Definition all_above (t : Z) (m : M Z) : bool := forallb (fun p => match snd p with Some z => (t <? z)%Z | None => false end) (leaves 0 m).
Lemma all_below_ok t m : all_below t m = true -> always (fun z => (IZR z < IZR t)%R) m.
Proof.
  intros H. apply leaves_always with (d := 0). unfold all_below in H. rewrite forallb_forall in H. apply Forall_forall. intros p Hp. specialize (H p Hp).
  destruct (snd p); [apply IZR_lt; apply Z.ltb_lt; exact H|discriminate H].
Qed.
Lemma all_above_ok t m : all_above t m = true -> always (fun z => (IZR t < IZR z)%R) m.
Proof.
  intros H. apply leaves_always with (d := 0). unfold all_above in H. rewrite forallb_forall in H. apply Forall_forall. intros p Hp. specialize (H p Hp).
  destruct (snd p); [apply IZR_lt; apply Z.ltb_lt; exact H|discriminate H].
Qed.
Definition q16 (p : Z) (q : positive) : f64 := frat p q.
Definition sought16 (p : Z) (q : positive) (t : Z) : bool :=
  fle (w64 0) (q16 p q) && fle (q16 p q) (w64 1) && feq (fmul (q16 p q) (w64 1000)) (w64 t) && (Z.abs t <=? 2 ^ 53)%Z.
Lemma value16 ops p q t lo hi : proper lg64 1024 16 ops -> default_mode ops -> few_levels31 1024 16 ops -> length (ritems_of ops) = 1000 ->
  sought16 p q t = true -> fisnan (w64 lo) = false -> fisnan (w64 hi) = false ->
  (all_below t (brank 16 192 (map (bop (w64 lo)) ops)) = true -> always (fun x => In x (ritems_of ops) /\ flt (w64 lo) x = true) (value_after lg64 1024 16 ops (q16 p q))) /\
  (all_above t (brank 16 192 (map (bop (w64 hi)) ops)) = true -> always (fun x => In x (ritems_of ops) /\ fle x (w64 hi) = true) (value_after lg64 1024 16 ops (q16 p q))).
Proof.
  intros P1 P2 P3 EL H Hlo Hhi. unfold sought16 in H. apply andb_prop in H. destruct H as [H Ht]. apply andb_prop in H. destruct H as [H Hf]. apply andb_prop in H. destruct H as [H1 H2].
  apply Z.leb_le in Ht. destruct (quantile64 _ H1 H2) as (r & Er & Hr).
  destruct (@bits_value f64 f64_ops f64_laws lg64 1024 16 192 ops (q16 p q) r (w64 lo) (w64 hi) P1 P2 eq_refl P3) as (u & Hu & A & B);
    [|rewrite EL; vm_compute; discriminate|exact Er|exact Hr|exact Hlo|exact Hhi|vm_compute; reflexivity|].
  - intros E. rewrite E in EL. discriminate EL.
  - assert (u = IZR t) as -> by (rewrite EL in Hu; exact (@rank64 _ t _ Hf Ht Hu)).
    split; intros H; [apply A; now apply all_below_ok|apply B; now apply all_above_ok].
Qed.
(** whatever the coins: 0.5 within 4 of 500, 0.1 within 1 of 100, 0.001 at most 1, 0 at most 0, 1 above 989 (all items are the integers 0 to 999) *)
Lemma values16 :
  always (fun x => In x (ritems_of b16) /\ fle x (w64 0) = true) (value_after lg64 1024 16 b16 (q16 0 1)) /\
  always (fun x => In x (ritems_of b16) /\ fle x (w64 1) = true) (value_after lg64 1024 16 b16 (q16 1 1000)) /\
  always (fun x => In x (ritems_of b16) /\ flt (w64 98) x = true) (value_after lg64 1024 16 b16 (q16 1 10)) /\
  always (fun x => In x (ritems_of b16) /\ fle x (w64 101) = true) (value_after lg64 1024 16 b16 (q16 1 10)) /\
  always (fun x => In x (ritems_of b16) /\ flt (w64 495) x = true) (value_after lg64 1024 16 b16 (q16 1 2)) /\
  always (fun x => In x (ritems_of b16) /\ fle x (w64 504) = true) (value_after lg64 1024 16 b16 (q16 1 2)) /\
  always (fun x => In x (ritems_of b16) /\ flt (w64 989) x = true) (value_after lg64 1024 16 b16 (q16 1 1)).
Proof.
  destruct b16_proper as (P1 & P2 & P3 & P4).
  assert (length (ritems_of b16) = 1000) as EL by (rewrite P4; unfold asc; now rewrite !map_length, seq_length).
  assert (forall p q t lo hi, _) as V by exact (fun p q t lo hi => @value16 b16 p q t lo hi P1 P2 P3 EL).
  split; [|split; [|split; [|split; [|split; [|split]]]]].
  - refine (proj2 (V 0%Z 1%positive 0%Z 0%Z 0%Z _ _ _) _); vm_compute; reflexivity.
  - refine (proj2 (V 1%Z 1000%positive 1%Z 1%Z 1%Z _ _ _) _); vm_compute; reflexivity.
  - refine (proj1 (V 1%Z 10%positive 100%Z 98%Z 101%Z _ _ _) _); vm_compute; reflexivity.
  - refine (proj2 (V 1%Z 10%positive 100%Z 98%Z 101%Z _ _ _) _); vm_compute; reflexivity.
  - refine (proj1 (V 1%Z 2%positive 500%Z 495%Z 504%Z _ _ _) _); vm_compute; reflexivity.
  - refine (proj2 (V 1%Z 2%positive 500%Z 495%Z 504%Z _ _ _) _); vm_compute; reflexivity.
  - refine (proj1 (V 1%Z 1%positive 1000%Z 989%Z 999%Z _ _ _) _); vm_compute; reflexivity.
Qed.
Theorem C92_unit_test_values :
  always (fun x => In x (ritems_of b16) /\ fle x (w64 0) = true) (value_after lg64 1024 16 b16 (q16 0 1)) /\
  always (fun x => In x (ritems_of b16) /\ fle x (w64 1) = true) (value_after lg64 1024 16 b16 (q16 1 1000)) /\
  always (fun x => In x (ritems_of b16) /\ flt (w64 98) x = true) (value_after lg64 1024 16 b16 (q16 1 10)) /\
  always (fun x => In x (ritems_of b16) /\ fle x (w64 101) = true) (value_after lg64 1024 16 b16 (q16 1 10)) /\
  always (fun x => In x (ritems_of b16) /\ flt (w64 495) x = true) (value_after lg64 1024 16 b16 (q16 1 2)) /\
  always (fun x => In x (ritems_of b16) /\ fle x (w64 504) = true) (value_after lg64 1024 16 b16 (q16 1 2)) /\
  always (fun x => In x (ritems_of b16) /\ flt (w64 989) x = true) (value_after lg64 1024 16 b16 (q16 1 1)).
Proof. exact values16. Qed.
Print Assumptions C92_unit_test_values.

(* ------------------------------------------------------------------ *)
(** * rc_sketch2.rs:380-399: [insert_batch_multiple_values] of RCSketch2 asserts the same of the ranks of 500 and 1000, and can fail *)
Lemma unit_tests2_fail :
  (exists r, run (rank_after2 0 8 (bufs (asc 1000)) (w64 500)) (repeat true 300) = Returned r /\ ~ (Z.abs (r - 500) <= 10)%Z) /\
  (exists r, run (rank_after2 0 8 (bufs (asc 1000)) (w64 1000)) (repeat true 300) = Returned r /\ ~ (Z.abs (r - 1000) <= 30)%Z).
Proof.
  split; [exists 468%Z|exists 927%Z]; (split; [vm_compute; reflexivity|vm_compute; intros H; now apply H]).
Qed.
Theorem C92_rc2_refuted : exists coins,
  (exists r, run (rank_after2 0 8 (bufs (asc 1000)) (w64 500)) coins = Returned r /\ ~ (Z.abs (r - 500) <= 10)%Z) /\
  (exists r, run (rank_after2 0 8 (bufs (asc 1000)) (w64 1000)) coins = Returned r /\ ~ (Z.abs (r - 1000) <= 30)%Z).
Proof. exact (ex_intro _ (repeat true 300) unit_tests2_fail). Qed.
Print Assumptions C92_rc2_refuted.
