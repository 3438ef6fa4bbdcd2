(** Property C91: the RC sketches use their items only through comparisons. *)
From Coq Require Import List Arith ZArith NArith Lia Bool Reals.
From Verif Require Import Base Floats IEEE Digest Spec FloatFacts History TDigest RCSketch RCHist RCTop RCObs RC2 RC2Top OrderMap P_Parallel P_RC P_RC2.
Set Implicit Arguments.

(** Two histories of the same shape, in possibly different float types, are given.  Item by item, one is <= v exactly when the other is
    <= w.  Then, with the same coin flips, the rank of v in the one is the rank of w in the other (or both panic). *)
Theorem C91_rank : forall F F' (FO : FloatOps F) (FL : FloatLaws F) (GO : FloatOps F') (GL : FloatLaws F') v w lg lg' n k
    (ops : list (rop F)) (ops' : list (rop F')) coins,
  fisnan v = false -> fisnan w = false -> calc_buffer_size lg n k = calc_buffer_size lg' n k ->
  Forall2 (same_side v w) ops ops' -> no_nan (ritems_of ops) -> no_nan (ritems_of ops') ->
  run (rank_after lg n k ops v) coins = run (rank_after lg' n k ops' w) coins.
Proof. exact rank_same. Qed.
Print Assumptions C91_rank.

Theorem C91_rank2 : forall F F' (FO : FloatOps F) (FL : FloatLaws F) (GO : FloatOps F') (GL : FloatLaws F') v w extra k
    (ops : list (rop F)) (ops' : list (rop F')) coins,
  fisnan v = false -> fisnan w = false ->
  Forall2 (same_side v w) ops ops' -> no_nan (ritems_of ops) -> no_nan (ritems_of ops') ->
  run (rank_after2 extra k ops v) coins = run (rank_after2 extra k ops' w) coins.
Proof. exact rank2_same. Qed.
Print Assumptions C91_rank2.

(** A map that keeps the order of the items (and what is a NaN) commutes with the sketch: fed with the images, it answers the images. *)
Theorem C91_value : forall F (FO : FloatOps F) (FL : FloatLaws F) (P : F -> Prop) f lg n k (ops : list (rop F)) q coins,
  (forall x, P x -> fisnan (f x) = fisnan x) -> (forall x y, P x -> P y -> flt (f x) (f y) = flt x y) ->
  Forall P (ritems_of ops) -> Forall (fun o => rmeth o = Default) ops ->
  run (value_after lg n k (map (mop f) ops) q) coins = map_result f (run (value_after lg n k ops q) coins).
Proof. exact @value_image. Qed.
Print Assumptions C91_value.

Theorem C91_value2 : forall F (FO : FloatOps F) (FL : FloatLaws F) (P : F -> Prop) f extra k (ops : list (rop F)) q coins,
  (forall x, P x -> fisnan (f x) = fisnan x) -> (forall x y, P x -> P y -> flt (f x) (f y) = flt x y) ->
  Forall P (ritems_of ops) -> Forall (fun o => rmeth o = Default) ops ->
  run (value_after2 extra k (map (mop f) ops) q) coins = map_result f (run (value_after2 extra k ops q) coins).
Proof. exact @value2_image. Qed.
Print Assumptions C91_value2.

(** The distributions of the answers agree too. *)
Theorem C91_distribution : forall F F' (FO : FloatOps F) (FL : FloatLaws F) (GO : FloatOps F') (GL : FloatLaws F') v w lg lg' n k extra k2
    (ops : list (rop F)) (ops' : list (rop F')) (u : Z -> R),
  fisnan v = false -> fisnan w = false ->
  Forall2 (same_side v w) ops ops' -> no_nan (ritems_of ops) -> no_nan (ritems_of ops') ->
  (calc_buffer_size lg n k = calc_buffer_size lg' n k -> expect u (rank_after lg n k ops v) = expect u (rank_after lg' n k ops' w)) /\
  expect u (rank_after2 extra k2 ops v) = expect u (rank_after2 extra k2 ops' w).
Proof. exact @rank_distribution. Qed.
Print Assumptions C91_distribution.

(** the ranks of 13 in 24, 23, ..., 1 and of 0 in 1, 1, ..., 0, 0, 0: the same answer, which depends on the coins *)
Definition bits24 : list (rop f64) := bufs (repeat 1%Z 10) ++ adds (repeat 1%Z 1) ++ adds (repeat 0%Z 13).
Example C91_rank_nonvacuous :
  Forall2 (same_side (w64 13) (w64 0)) ops24 bits24 /\ no_nan (ritems_of ops24) /\ no_nan (ritems_of bits24) /\
  map (fun c => run (rank_after lg64 24 2 bits24 (w64 0)) (repeat c 9)) [true; false] =
  map (fun c => run (rank_after lg64 24 2 ops24 (w64 13)) (repeat c 9)) [true; false] /\
  run (rank_after lg64 24 2 bits24 (w64 0)) (repeat true 9) <> run (rank_after lg64 24 2 bits24 (w64 0)) (repeat false 9).
Proof.
  split; [|split; [|split; [|split]]].
  - unfold ops24, bits24, bufs, adds. cbn [app map repeat]. repeat (constructor; [first [reflexivity|cbn [same_side]; repeat (constructor; [reflexivity|]); constructor]|]). constructor.
  - apply ops24_proper.
  - repeat constructor.
  - vm_compute. reflexivity.
  - vm_compute. discriminate.
Qed.

(** doubling and adding one *)
Definition twice1 (x : f64) : f64 := fadd (fadd x x) (w64 1).
Definition keeps (l : list f64) : bool :=
  forallb (fun x => eqb (fisnan (twice1 x)) (fisnan x) && forallb (fun y => eqb (flt (twice1 x) (twice1 y)) (flt x y)) l) l.
Example C91_value_nonvacuous :
  keeps (ritems_of ops24) = true /\
  map (fun c => match run (value_after lg64 24 2 (map (mop twice1) ops24) (frat 1 2)) (repeat c 9) with Returned x => Some (ftoZ x) | _ => None end) [true; false] = [Some (Some 29%Z); Some (Some 27%Z)] /\
  map (fun c => match run (value_after lg64 24 2 ops24 (frat 1 2)) (repeat c 9) with Returned x => Some (ftoZ x) | _ => None end) [true; false] = [Some (Some 14%Z); Some (Some 13%Z)].
Proof. vm_compute. repeat split. Qed.
