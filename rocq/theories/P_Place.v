(** Properties C72 (when a ParTDigest flushes), C73 (where add_cluster puts a cluster) and C74 (the same for add_cluster_tree). *)
From Coq Require Import List Arith ZArith Lia Bool Permutation Sorted Reals Lra.
From Flocq Require Import Core BinarySingleNaN.
From Verif Require Import Base Floats XReal IEEE Digest TDigest ScaleFunctions KeyedSumTree Spec FloatFacts TDigestProofs TDigestExact TDigestHist TDigestTop TDigestCluster KeyedSumCluster ParTDSched ClusterCap KeyedSumCap P_Parallel P_TDigest P_Cluster P_Tree.
Set Implicit Arguments.

(* ------------------------------------------------------------------ *)
(** * C72 *)

(** Any arithmetic, any number of threads, any inner digest to start from. *)
Theorem C72_schedule : forall F (FO : FloatOps F) (cfg : tcfg F) threads capacity creator ops r,
  exec (par_t_digest cfg threads capacity creator) (pt_new creator) ops = Ret r ->
  foldM (deliver cfg threads creator) creator (batches capacity [] ops) = Ret (pt_digest (fst r)) /\ pt_buffer (fst r) = held capacity [] ops /\
  length (pt_buffer (fst r)) <= capacity /\ concat (batches capacity [] ops) ++ pt_buffer (fst r) = items_of ops.
Proof. exact @pt_schedule. Qed.
Print Assumptions C72_schedule.

(** three calls fill a buffer of two; the query delivers the rest; the fifth item waits *)
Definition C72_ops : list (op f64) := [Add (w64 3); AddBuf (map w64 [1; 2]%Z); Add (w64 9); Quant (w64 2); Add (w64 5)].
Example C72_nonvacuous :
  (map (map (fun x => existsb (feq x) (map w64 [3; 1; 2]%Z))) (batches 2 [] C72_ops), length (held 2 [] C72_ops)) = ([[true; true; true]; [false]], 1) /\
  match exec (par64 2 2 4) (pt_new td_new) C72_ops with Ret r => gives (Ret (pt_buffer (fst r))) [w64 5] | _ => false end = true.
Proof. split; vm_compute; reflexivity. Qed.

(* ------------------------------------------------------------------ *)
(** * C73 *)

(** the part of the scale taken up by a lone centroid *)
Definition whole_span (cf : Z) : f64 := fsub (tc_scale (lin_cfg cf) f1 (w64 cf) f1) (tc_scale (lin_cfg cf) f0 (w64 cf) f1).
(** Refuted: the weight of the cluster joined to is counted twice in the total, and both clusters end up in one centroid that
    takes up one and a half units of scale. *)
Theorem C73_span_refuted : exists (cf : Z) (xs : list (centroid f64)) (growth : f64),
  match calls64 cf [Clusters xs growth] with Ret s => length (t_centroids s) | _ => 0 end = 1 /\ 2 <= length xs /\ flt f1 (whole_span cf) = true.
Proof. exists 3%Z, [cen64 4 2; cen64 6 1], (w64 10). split; [vm_compute; reflexivity|]. split; [cbn; lia|vm_compute; reflexivity]. Qed.
Print Assumptions C73_span_refuted.

(** What it does, in exact arithmetic, for every scale function, as long as the growth limit is not reached (missing from the
    full claim: what the merge at the limit does, and the place where means are repeated). *)
Theorem C73_step_partial : forall cfg : tcfg xr, lib_ok cfg -> forall s (l xs : list (R * R)) g limit,
  listed s l -> Forall (fun p => 0 < snd p)%R l -> Forall (fun p => 0 < snd p)%R xs -> to_usize (fmul g (tc_cf cfg)) = Ret limit ->
  length l + length xs <= limit ->
  exists s' l', add_cluster cfg s (map (fun p => Cen (XFin (fst p)) (XFin (snd p))) xs) g = Ret s' /\ listed s' l' /\
    place_all cfg l (sumR (map snd l)) xs l'.
Proof. exact calls_place. Qed.
Print Assumptions C73_step_partial.

(** The linear scale function: what is joined weighs less than 2W/(cf-2), W the weight of everything; one unit of scale is 2W/cf. *)
Theorem C73_linear_partial : forall cfg : tcfg xr, lib_ok cfg -> forall cf, tc_scale cfg = k0 -> tc_cf cfg = XFin cf -> (2 < cf)%R ->
  forall s (l xs : list (R * R)) g limit,
  listed s l -> Forall (fun p => 0 < snd p)%R l -> Forall (fun p => 0 < snd p)%R xs -> to_usize (fmul g (tc_cf cfg)) = Ret limit ->
  length l + length xs <= limit ->
  exists s' l', add_cluster cfg s (map (fun p => Cen (XFin (fst p)) (XFin (snd p))) xs) g = Ret s' /\ listed s' l' /\
    Forall (fun p => In p l \/ In p xs \/ snd p * (cf - 2) < 2 * sumR (map snd l'))%R l'.
Proof. exact calls_cap. Qed.
Print Assumptions C73_linear_partial.

(** room for 60 clusters: the third cluster goes between the first two, and the second has room for the fourth *)
Example C73_nonvacuous :
  match to_usize (fmul (w64 10) (tc_cf (lin_cfg 6))) with Ret n => n =? 60 | _ => false end &&
  gives (do s <- calls64 6 [Clusters [cen64 4 7; cen64 9 1; cen64 6 5; cen64 10 1] (w64 10)];
    Ret (flat_map (fun c => [mean c; weight c]) (t_centroids s))) (map w64 [4; 7; 6; 5]%Z ++ [frat 19 2; w64 2]) = true.
Proof. vm_compute. reflexivity. Qed.

(* ------------------------------------------------------------------ *)
(** * C74 *)

(** Refuted: two clusters with opposite means are joined whatever the compression factor, here into fifty units of scale. *)
Theorem C74_span_refuted : exists (cf : Z) (xs : list (centroid f64)) (growth : f64),
  match tree_calls64 cf [Tree id_shuffle xs growth] with Ret s => length (t_centroids s) | _ => 0 end = 1 /\ 2 <= length xs /\ flt (w64 49) (whole_span cf) = true.
Proof. exists 100%Z, [cen64 (-5) 1; cen64 5 1], (w64 10). split; [vm_compute; reflexivity|]. split; [cbn; lia|vm_compute; reflexivity]. Qed.
Print Assumptions C74_span_refuted.

(** What it does with the linear scale function in exact arithmetic, when it returns and the growth limit is not reached
    (missing from the full claim: other scale functions, whose test also depends on the tree's prefix sums). *)
Theorem C74_test_partial : forall cfg : tcfg xr, forall cf, tc_scale cfg = k0 -> tc_cf cfg = XFin cf -> (0 < cf)%R ->
  forall shuffle, (forall n l, Permutation (shuffle n l) l) -> forall s (l xs : list (R * R)) g limit,
  listed s l -> Forall (fun p => 0 < snd p)%R l -> Forall (fun p => 0 < snd p)%R xs -> to_usize (fmul g (tc_cf cfg)) = Ret limit ->
  length l + length xs <= limit ->
  whenever (fun s' => exists l0 l', Permutation l0 l /\ listed s' l' /\ tplace_all cf l0 (sumR (map snd l)) xs l')
    (add_cluster_tree cfg shuffle s (map (fun p => Cen (XFin (fst p)) (XFin (snd p))) xs) g).
Proof. exact calls_tplace. Qed.
Print Assumptions C74_test_partial.

(** the third cluster joins the second (|mean| = 3, 3 * 4 < 2 * 9); the fourth stays alone *)
Example C74_nonvacuous :
  gives (do s <- tree_calls64 4 [Tree id_shuffle [cen64 40 3; cen64 2 3; cen64 4 3; cen64 20 1] (w64 10)];
    Ret (flat_map (fun c => [mean c; weight c]) (t_centroids s))) (map w64 [3; 6; 20; 1; 40; 3]%Z) = true.
Proof. vm_compute. reflexivity. Qed.
