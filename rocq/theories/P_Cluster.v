(** Properties C25-C27 (clustering), C29 and C30 (the parallel t-digest). *)
From Coq Require Import List Arith ZArith Lia Bool Permutation Sorted Reals Lra.
From Flocq Require Import Core BinarySingleNaN.
From Verif Require Import Base Floats XReal IEEE Digest TDigest ScaleFunctions Spec FloatFacts History TDigestProofs TDigestProofs2 TDigestExact TDigestHist TDigestTop TDigestCluster ParTDProofs P_Parallel P_TDigest.
Set Implicit Arguments.

(** a digest with the linear scale function k0 in f64 *)
Definition lin_cfg (cf : Z) : tcfg f64 := plain k0 inv_k0 (w64 cf).
Definition cen64 (m w : Z) : centroid f64 := Cen (w64 m) (w64 w).
Definition calls64 (cf : Z) (cs : list (call f64)) : M (tdigest f64) := do_calls (lin_cfg cf) td_new cs.
(** the means are in order *)
Fixpoint in_order (l : list (centroid f64)) : bool :=
  match l with a :: (b :: _) as l' => fle (mean a) (mean b) && in_order l' | _ => true end.

(* ------------------------------------------------------------------ *)
(** * C25 *)

(** Any arithmetic, any scale closures, any binary search, any sort, any growth limit: clusters of whole weight. *)
Theorem C25_weight : forall F (FO : FloatOps F) (FL : FloatLaws F) (cfg : tcfg F), lib_ok cfg -> forall (cs : list (call F)) zs,
  Forall2 (fun c z => fval (weight c) = XFin (IZR z) /\ (1 <= z)%Z) (flat_map given cs) zs ->
  Forall (fun c => fisnan (mean c) = false) (flat_map given cs) ->
  (fold_right Z.add 0 zs <= fint)%Z -> (fold_right Z.add 0 zs <= 2 ^ 53)%Z ->
  whenever (fun s => td_count s = Ret (fold_right Z.add 0%Z zs) /\ fval (total_weight s) = XFin (IZR (fold_right Z.add 0%Z zs)) /\
      forall c, In c (flat_map given cs) -> fle (t_min s) (mean c) = true /\ fle (mean c) (t_max s) = true)
    (do_calls cfg td_new cs).
Proof. exact @calls_weight. Qed.
Print Assumptions C25_weight.

(** Exact arithmetic, any positive weights: always an answer; the weight, the weighted sum and the extremes are those of
    what was given. *)
Theorem C25_exact : forall cfg : tcfg xr, lib_ok cfg -> forall cs itss, Forall2 (call_of cfg) itss cs ->
  exists s, do_calls cfg td_new cs = Ret s /\
    (concat itss <> [] -> exists l lo hi, listed s l /\ sumR (map snd l) = sumR (map snd (concat itss)) /\
      sumR (map (fun p => fst p * snd p) l)%R = sumR (map (fun p => fst p * snd p) (concat itss))%R /\
      t_min s = XFin lo /\ t_max s = XFin hi /\ leastR (map fst (concat itss)) lo /\ mostR (map fst (concat itss)) hi /\
      Forall (fun p => (lo <= fst p <= hi)%R /\ (0 < snd p)%R) l).
Proof. exact calls_exact. Qed.
Print Assumptions C25_exact.

(** five clusters of total weight 9 after three items; growth limit 1 forces merges in between *)
Example C25_nonvacuous :
  (do s <- calls64 4 [Items (map w64 [1; 5; 3]%Z); Clusters [cen64 9 2; cen64 0 1; cen64 5 3; cen64 7 1; cen64 2 2] f1];
   do c <- td_count s; Ret (c, length (t_centroids s), (feq (t_min s) (w64 0), feq (t_max s) (w64 9)))) = Ret (12%Z, 4, (true, true)).
Proof. vm_compute. reflexivity. Qed.

(* ------------------------------------------------------------------ *)
(** * C26 *)

(** Refuted: two equal means let a cluster above them be merged into the first of the two. *)
Theorem C26_sorted_refuted : exists (cf : Z) (items : list f64) (x : centroid f64) (growth : f64),
  match calls64 cf [Items items] with Ret s => in_order (t_centroids s) | _ => false end = true /\
  match calls64 cf [Items items; Clusters [x] growth] with Ret s => in_order (t_centroids s) | _ => true end = false.
Proof. exists 4%Z, (map w64 [1; 5; 5]%Z), (cen64 9 1), (w64 10). split; vm_compute; reflexivity. Qed.
Print Assumptions C26_sorted_refuted.

(** Exact arithmetic: one cluster put into strictly ascending centroids leaves them in order (missing from the full claim:
    repeated means, where it is refuted above). *)
Theorem C26_sorted_partial : forall cfg : tcfg xr, lib_ok cfg -> forall s l lo hi x g lim,
  listed s l -> StronglySorted (fun a b => fst a < fst b)%R l -> Forall (fun p => 0 < snd p)%R l ->
  t_min s = XFin lo -> t_max s = XFin hi -> Forall (fun p => lo <= fst p <= hi)%R l ->
  (0 < snd x)%R -> fmul g (tc_cf cfg) = XFin lim -> (-1 < lim < IZR (2 ^ 64))%R ->
  exists s' l', add_cluster cfg s [Cen (XFin (fst x)) (XFin (snd x))] g = Ret s' /\ listed s' l' /\ StronglySorted (fun a b => fst a <= fst b)%R l'.
Proof. exact add_one_cluster_sorted. Qed.
Print Assumptions C26_sorted_partial.

(** ... and the next add_buffer puts everything back in order, whatever clusters came before. *)
Theorem C26_buffer_sorts : forall cfg : tcfg xr, lib_ok cfg -> forall cs itss l, Forall2 (call_of cfg) itss cs ->
  exists s s' l', do_calls cfg td_new cs = Ret s /\ td_add_buffer cfg s (map XFin l) = Ret s' /\ listed s' l' /\
    StronglySorted (fun a b => fst a <= fst b)%R l'.
Proof. exact buffer_sorts. Qed.
Print Assumptions C26_buffer_sorts.

Example C26_nonvacuous :
  gives (do s <- calls64 4 [Items (map w64 [1; 5; 3]%Z); Clusters [cen64 9 1; cen64 3 1] (w64 10)];
         Ret (flat_map (fun c => [mean c; weight c]) (t_centroids s))) (map w64 [2; 2; 3; 1; 7; 2]%Z) = true.
Proof. vm_compute. reflexivity. Qed.

(* ------------------------------------------------------------------ *)
(** * C27 *)
Theorem C27_bounds : forall F (FO : FloatOps F) (cfg : tcfg F), lib_ok cfg -> forall tick (cs : list (centroid F)) x,
  cs <> [] -> Forall (fun c => fisnan (mean c) = false) cs -> fisnan x = false ->
  exists li ri, find_closest cfg tick cs x = Ret (Some (li, ri)) /\ li < ri <= length cs.
Proof. exact @find_closest_total. Qed.
Print Assumptions C27_bounds.

(** Refuted: of the means 0 and 10 the target 9 gets both, though 0 is nine times further away ... *)
Definition close64 (ms : list Z) (x : Z) : M (option (nat * nat)) := find_closest (lin_cfg 4) 0 (map (fun m => cen64 m 1) ms) (w64 x).
Theorem C27_too_many_refuted : exists ms x far, close64 ms x = Ret (Some (0, 2)) /\ nth_error ms 0 = Some far /\ exists near, In near ms /\ (Z.abs (near - x) < Z.abs (far - x))%Z.
Proof. exists [0; 10]%Z, 9%Z, 0%Z. split; [vm_compute; reflexivity|]. split; [reflexivity|]. exists 10%Z. split; [right; left; reflexivity|reflexivity]. Qed.
Print Assumptions C27_too_many_refuted.
(** ... and of two equal means right of the target only the first is in the range. *)
Theorem C27_misses_tie_refuted : exists ms x li ri i m m', close64 ms x = Ret (Some (li, ri)) /\ nth_error ms li = Some m /\ nth_error ms i = Some m' /\ m = m' /\ ri <= i.
Proof. exists [5; 5]%Z, 1%Z, 0, 1, 1, 5%Z, 5%Z. split; [vm_compute; reflexivity|]. repeat split; auto. Qed.
Print Assumptions C27_misses_tie_refuted.

(** What holds, in exact arithmetic and for sorted centroids: the range contains a nearest centroid, and nothing that has
    another mean strictly between it and the target. *)
Theorem C27_nearest_partial : forall cfg : tcfg xr, lib_ok cfg -> forall tick (cs : list (R * R)) x,
  cs <> [] -> StronglySorted (fun a b => fst a <= fst b)%R cs ->
  exists li ri, find_closest cfg tick (map (fun p => Cen (XFin (fst p)) (XFin (snd p))) cs) (XFin x) = Ret (Some (li, ri)) /\ li < ri <= length cs /\
    (exists j c, li <= j < ri /\ nth_error cs j = Some c /\ In c cs /\ forall d, In d cs -> (Rabs (fst c - x) <= Rabs (fst d - x))%R) /\
    (forall j c d, li <= j < ri -> nth_error cs j = Some c -> In d cs -> ~ (fst c < fst d < x)%R /\ ~ (x < fst d < fst c)%R).
Proof. exact closest_exact. Qed.
Print Assumptions C27_nearest_partial.

Example C27_nonvacuous : (close64 [1; 4; 6; 6; 9]%Z 5, close64 [1; 4; 6; 6; 9]%Z 7, close64 [1; 4; 6; 6; 9]%Z 0, close64 [1; 4]%Z 9) =
  (Ret (Some (1, 3)), Ret (Some (2, 5)), Ret (Some (0, 1)), Ret (Some (1, 2))).
Proof. vm_compute. reflexivity. Qed.

(* ------------------------------------------------------------------ *)
(** * C29 *)
Definition par64 (threads capacity : nat) (cf : Z) : digest f64 := par_t_digest (lin_cfg cf) threads capacity td_new.
Definition par_run (threads capacity : nat) (cf : Z) (ops : list (op f64)) : M (list f64) :=
  do (s, a) <- exec (par64 threads capacity cf) (pt_new td_new) ops; Ret a.

Theorem C29_count : forall F (FO : FloatOps F) (FL : FloatLaws F) (cfg : tcfg F), lib_ok cfg -> forall threads capacity, 1 <= threads -> forall ops : list (op F),
  (Z.of_nat (length (items_of ops)) <= fint)%Z -> (Z.of_nat (length (items_of ops)) <= 2 ^ 53)%Z ->
  whenever (fun r => d_count (par_t_digest cfg threads capacity td_new) (fst r) = Ret (Z.of_nat (length (items_of ops))))
    (exec (par_t_digest cfg threads capacity td_new) (pt_new td_new) ops).
Proof. exact @pt_history_count. Qed.
Print Assumptions C29_count.

(** Exact arithmetic: every call returns, and a flush leaves a sorted digest holding the weight and the sum of all items. *)
Theorem C29_exact : forall cfg : tcfg xr, lib_ok cfg -> forall threads capacity, 1 <= threads -> forall ops rs,
  Forall xok ops -> items_of ops = map XFin rs -> (Z.of_nat (length rs) < 2 ^ 64)%Z ->
  always (fun r => d_count (par_t_digest cfg threads capacity td_new) (fst r) = Ret (Z.of_nat (length rs)) /\
    exists s' l, pt_flush cfg threads td_new (fst r) = Ret s' /\ pt_buffer s' = [] /\ listed (pt_digest s') l /\ sumR (map snd l) = INR (length rs) /\
      sumR (map (fun p => fst p * snd p) l)%R = sumR rs /\ StronglySorted (fun a b => fst a <= fst b)%R l)
    (exec (par_t_digest cfg threads capacity td_new) (pt_new td_new) ops).
Proof. exact pt_exact_count. Qed.
Print Assumptions C29_exact.

Example C29_nonvacuous :
  (do (s, _) <- exec (par64 2 3 4) (pt_new td_new) [AddBuf (map w64 [3; 1; 2; 8; 9]%Z); Add (w64 7); Quant (w64 5); Add (w64 4)];
   do c <- d_count (par64 2 3 4) s; Ret (c, length (pt_buffer s))) = Ret (7%Z, 1).
Proof. vm_compute. reflexivity. Qed.
(** a chunk size of zero threads panics *)
Example C29_zero_threads : is_panic (par_run 0 1 4 [Add (w64 1); Add (w64 2)]) = true.
Proof. vm_compute. reflexivity. Qed.

(* ------------------------------------------------------------------ *)
(** * C30 *)

(** Refuted: the second flush overwrites the extremes with those of its batch; only the centroid means survive, and the
    smallest item 0 has been merged away. *)
Theorem C30_extremes_refuted : exists (threads capacity : nat) (cf : Z) (batch1 batch2 : list f64) (least : f64),
  1 <= threads /\ existsb (feq least) batch1 = true /\
  match par_run threads capacity cf [AddBuf batch1; Val f0; AddBuf batch2; Val f0] with
  | Ret [a; b] => feq a least && flt least b | _ => false end = true.
Proof.
  exists 10, 100, 1%Z, (map w64 [0; 10]%Z), (map w64 [6; 7]%Z), (w64 0). split; [lia|]. split; vm_compute; reflexivity.
Qed.
Print Assumptions C30_extremes_refuted.

(** What holds in exact arithmetic: the answers lie within the data, enclose everything flushed by the query, and are the
    true extremes as long as there was no flush before (missing: several flushes, where it is refuted above). *)
Theorem C30_extremes_partial : forall cfg : tcfg xr, lib_ok cfg -> forall threads capacity, 1 <= threads -> forall ops rs,
  Forall xok ops -> items_of ops = map XFin rs -> rs <> [] -> (Z.of_nat (length rs) < 2 ^ 64)%Z ->
  always (fun r => exists lo hi s', d_est_v (par_t_digest cfg threads capacity td_new) (fst r) f0 = Ret (s', XFin lo) /\
      d_est_v (par_t_digest cfg threads capacity td_new) (fst r) f1 = Ret (s', XFin hi) /\
      (exists x y, In x rs /\ In y rs /\ (x <= lo)%R /\ (hi <= y)%R) /\
      (forall x, In (XFin x) (pt_buffer (fst r)) -> (lo <= x <= hi)%R) /\
      (t_centroids (pt_digest (fst r)) = [] -> leastR rs lo /\ mostR rs hi))
    (exec (par_t_digest cfg threads capacity td_new) (pt_new td_new) ops).
Proof. exact pt_exact_ends. Qed.
Print Assumptions C30_extremes_partial.

Example C30_nonvacuous : gives (par_run 2 100 4 [AddBuf (map w64 [3; 1; 2; 8; 9]%Z); Val f0; Val f1]) (map w64 [1; 9]%Z) = true.
Proof. vm_compute. reflexivity. Qed.
