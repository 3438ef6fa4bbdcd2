(** Properties C28 and C34-C37: KeyedSumTree and add_cluster_tree. *)
From Coq Require Import List Arith ZArith Lia Bool Permutation Sorted Reals Lra.
From Flocq Require Import Core BinarySingleNaN.
From Verif Require Import Base Floats XReal IEEE Digest TDigest KeyedSumTree ScaleFunctions Spec FloatFacts TDigestExact TDigestHist TDigestTop TDigestCluster KeyedSumProofs KeyedSumProofs2 KeyedSumCluster P_Parallel P_TDigest P_Cluster.
Set Implicit Arguments.

(** what can be read off a tree of f64 *)
Definition ins (k : Z) : kop := KIns (w64 k) (w64 1).
Definition del (k : Z) : @kop f64 := KDel (w64 k).
Definition listing (t : ktree f64) : list f64 := flat_map (fun c => [mean c; weight c]) (sorted_vec_key t).
Definition tree_of (ops : list (@kop f64)) : M (ktree f64) := krun kt_new ops.

(* ------------------------------------------------------------------ *)
(** * C34 *)
Theorem C34_map : forall F (FO : FloatOps F) (FL : FloatLaws F) (ops : list (@kop F)), legal [] ops ->
  exists t, krun kt_new ops = Ret t /\ Permutation (sorted_vec_key t) (map (fun p => Cen (fst p) (snd p)) (live ops)) /\
    StronglySorted (fun a b => flt (mean a) (mean b) = true) (sorted_vec_key t) /\ kt_size t = length (live ops).
Proof. exact @tree_is_map. Qed.
Print Assumptions C34_map.

(** outside those conditions: a key already present, and a NaN key on a non-empty tree, panic *)
Theorem C34_duplicate_panics : forall F (FO : FloatOps F) (FL : FloatLaws F) (ops : list (@kop F)) k w, legal [] ops ->
  (exists p, In p (live ops) /\ feq k (fst p) = true) -> (do t <- krun kt_new ops; kt_insert t k w) = Panic.
Proof. exact (fun F FO FL ops k w H Hp => @tree_duplicate_panics F FO FL ops k w H (proj2 (present_in k (live ops)) Hp)). Qed.
Print Assumptions C34_duplicate_panics.
Theorem C34_nan_panics : forall F (FO : FloatOps F) (FL : FloatLaws F) (ops : list (@kop F)) k w, legal [] ops -> live ops <> [] -> fisnan k = true ->
  (do t <- krun kt_new ops; kt_insert t k w) = Panic /\ (do t <- krun kt_new ops; kt_delete t k) = Panic.
Proof. exact @tree_nan_panics. Qed.
Print Assumptions C34_nan_panics.

Definition C34_ops : list (@kop f64) := [ins 5; ins 2; ins 8; ins 3; ins 4; del 5; ins 7; del 2; ins 6].
Example C34_nonvacuous :
  gives (do t <- tree_of C34_ops; Ret (listing t)) (map w64 [3; 1; 4; 1; 6; 1; 7; 1; 8; 1]%Z) = true /\
  (do t <- tree_of C34_ops; Ret (kt_size t)) = Ret 5 /\ is_panic (do t <- tree_of (C34_ops ++ [ins 6]); Ret (listing t)) = true.
Proof. split; [|split]; vm_compute; reflexivity. Qed.

(* ------------------------------------------------------------------ *)
(** * C35 *)

(** Refuted once something has been deleted: the sums of the nodes above are not updated (too much) ... *)
Theorem C35_stale_refuted : exists ops x,
  match (do t <- tree_of ops; do o <- less_than_sum t (w64 x); Ret (listing t, o)) with
  | Ret (l, Some v) => all_same l (map w64 [2; 1; 5; 1]%Z) && feq v (w64 3) | _ => false end = true.
Proof. exists [ins 5; ins 2; ins 1; del 1], 9%Z. vm_compute. reflexivity. Qed.
Print Assumptions C35_stale_refuted.
(** ... and the node that takes the place of a deleted one keeps its old sum (too little). *)
Theorem C35_too_little_refuted : exists ops x,
  match (do t <- tree_of ops; do o <- less_than_sum t (w64 x); Ret (listing t, o)) with
  | Ret (l, Some v) => all_same l (map w64 [3; 1; 4; 1; 7; 1; 10; 1]%Z) && feq v (w64 2) | _ => false end = true.
Proof. exists [ins 10; ins 5; ins 3; ins 4; ins 7; del 5], 20%Z. vm_compute. reflexivity. Qed.
Print Assumptions C35_too_little_refuted.

(** What holds: right for every tree built by insertions alone, any order of arrival. Whole weights, any arithmetic: *)
Theorem C35_inserted_partial : forall F (FO : FloatOps F) (FL : FloatLaws F) (l : list (centroid F)) zs,
  ForallOrdPairs (fun a b => feq (mean a) (mean b) = false) l -> Forall (fun c => fisnan (mean c) = false) l ->
  Forall2 (fun c z => fval (weight c) = XFin (IZR z) /\ (1 <= z)%Z) l zs -> (fold_right Z.add 0 zs <= fint)%Z ->
  exists t, kt_from l = Ret t /\ forall x, fisnan x = false -> exists o, less_than_sum t x = Ret o /\
    match o with None => l = [] | Some v => fval v = XFin (sumR (map (fun c => match fval (weight c) with XFin r => r | _ => 0%R end) (filter (fun c => flt (mean c) x) l))) end.
Proof. exact @from_less_whole. Qed.
Print Assumptions C35_inserted_partial.
(** any weights, exact arithmetic: *)
Theorem C35_inserted_exact_partial : forall l : list (R * R), NoDup (map fst l) ->
  exists t, kt_from (map (fun p => Cen (XFin (fst p)) (XFin (snd p))) l) = Ret t /\ forall x, exists o, less_than_sum t (XFin x) = Ret o /\
    match o with None => l = [] | Some v => v = XFin (sumR (map snd (filter (fun p => if Rlt_dec (fst p) x then true else false) l))) end.
Proof. exact from_less_exact. Qed.
Print Assumptions C35_inserted_exact_partial.

Example C35_nonvacuous : gives (do t <- kt_from (map (fun p => cen64 (fst p) (snd p)) [(5, 2); (1, 7); (9, 4); (3, 1); (7, 6)]%Z);
    mapM (fun x => do o <- less_than_sum t (w64 x); unwrap o) [0; 1; 2; 5; 6; 8; 9; 10]%Z) (map w64 [0; 0; 7; 8; 10; 16; 16; 20]%Z) = true.
Proof. vm_compute. reflexivity. Qed.

(* ------------------------------------------------------------------ *)
(** * C36 *)

(** For every history and every absent key: the contents stay, but the size is reduced; on an empty tree it underflows. *)
Theorem C36_size_refuted : forall F (FO : FloatOps F) (FL : FloatLaws F) (ops : list (@kop F)) k, legal [] ops -> fisnan k = false ->
  existsb (fun p => feq k (fst p)) (live ops) = false ->
  exists t, krun kt_new ops = Ret t /\ (live ops = [] -> kt_delete t k = Panic) /\
    (live ops <> [] -> exists t', kt_delete t k = Ret t' /\ sorted_vec_key t' = sorted_vec_key t /\ S (kt_size t') = kt_size t).
Proof. exact @tree_delete_absent. Qed.
Print Assumptions C36_size_refuted.

Example C36_nonvacuous : (do t <- tree_of [ins 5; ins 2; del 3; del 3]; Ret (length (sorted_vec_key t), kt_size t)) = Ret (2, 0) /\
  is_panic (do t <- tree_of [ins 5; del 5; del 3]; Ret (listing t)) = true.
Proof. split; vm_compute; reflexivity. Qed.

(* ------------------------------------------------------------------ *)
(** * C37 *)
Theorem C37_nearest : forall (ops : list (@kop xr)) x, legal [] ops -> live ops <> [] -> Forall (fun p => exists r, fst p = XFin r) (live ops) ->
  exists t l, krun kt_new ops = Ret t /\ closest_keys t (XFin x) = Ret l /\
    exists m wm, In (Cen (XFin m) wm) l /\ In (XFin m, wm) (live ops) /\ (forall k w, In (XFin k, w) (live ops) -> Rabs (m - x) <= Rabs (k - x))%R /\
      forall c, In c l -> exists k w, c = Cen (XFin k) w /\ In (XFin k, w) (live ops) /\ (Rabs (Rabs (k - x) - Rabs (m - x)) < / 1000)%R.
Proof. exact tree_closest_exact. Qed.
Print Assumptions C37_nearest.
(** any arithmetic, with the distances as computed (and no distance overflowing) *)
Theorem C37_nearest_any : forall F (FO : FloatOps F) (FL : FloatLaws F) (ops : list (@kop F)) x, legal [] ops -> live ops <> [] ->
  Forall (fun p => exists r, fval (fst p) = XFin r) (live ops) -> (exists r, fval x = XFin r) ->
  flt f0 (frat 1 1000) = true -> (forall p, In p (live ops) -> exists r, fval (fabs (fsub (fst p) x)) = XFin r) ->
  exists t l, krun kt_new ops = Ret t /\ closest_keys t x = Ret l /\ (forall c, In c l -> In (mean c, weight c) (live ops)) /\
    exists m, In m l /\ forall p, In p (live ops) -> fle (fabs (fsub (mean m) x)) (fabs (fsub (fst p) x)) = true.
Proof. exact @tree_closest_any. Qed.
Print Assumptions C37_nearest_any.

(** an overflowing distance leaves nothing: the largest and the smallest float *)
Example C37_overflow : match (do t <- kt_from [Cen fmaxval (w64 1)]; closest_keys t (fminval : f64)) with Ret [] => true | _ => false end = true.
Proof. vm_compute. reflexivity. Qed.
Example C37_nonvacuous : gives (do t <- tree_of [ins 5; ins 2; ins 8; ins 3; del 2; ins 1]; do l <- closest_keys t (w64 4); do l' <- closest_keys t (w64 7);
  Ret (map mean (l ++ l'))) (map w64 [5; 3; 8]%Z) = true /\ flt f0 (frat 1 1000 : f64) = true.
Proof. split; vm_compute; reflexivity. Qed.

(* ------------------------------------------------------------------ *)
(** * C28 *)

(** Refuted: the same value twice panics. *)
Definition tree_calls64 (cf : Z) (cs : list (tcall f64)) : M (tdigest f64) := do_tcalls (lin_cfg cf) td_new cs.
Definition id_shuffle : nat -> list (centroid f64) -> list (centroid f64) := fun _ l => l.
Theorem C28_panics_refuted : exists cf xs g, forallb (fun c => negb (fisnan (mean c))) xs = true /\
  is_panic (do s <- tree_calls64 cf [Tree id_shuffle xs g]; Ret (map mean (t_centroids s))) = true.
Proof. exists 4%Z, [cen64 100 1; cen64 100 1], (w64 10). split; vm_compute; reflexivity. Qed.
Print Assumptions C28_panics_refuted.

(** When it does return: the weight is right, for every shuffle, mixed with the other two ways of adding. Any arithmetic: *)
Theorem C28_weight_partial : forall F (FO : FloatOps F) (FL : FloatLaws F) (cfg : tcfg F), lib_ok cfg -> forall (cs : list (tcall F)) zs,
  Forall (fun c => match c with Call _ => True | Tree sh _ _ => forall n l, Permutation (sh n l) l end) cs ->
  Forall2 (fun c z => fval (weight c) = XFin (IZR z) /\ (1 <= z)%Z) (flat_map tgiven cs) zs ->
  Forall (fun c => fisnan (mean c) = false) (flat_map tgiven cs) ->
  (fold_right Z.add 0 zs <= fint)%Z -> (fold_right Z.add 0 zs <= 2 ^ 53)%Z ->
  whenever (fun s => td_count s = Ret (fold_right Z.add 0%Z zs) /\ fval (total_weight s) = XFin (IZR (fold_right Z.add 0%Z zs)) /\
      forall c, In c (flat_map tgiven cs) -> fle (t_min s) (mean c) = true /\ fle (mean c) (t_max s) = true)
    (do_tcalls cfg td_new cs).
Proof. exact @tcalls_weight. Qed.
Print Assumptions C28_weight_partial.
(** exact arithmetic, any positive weights: weight, weighted sum and extremes *)
Theorem C28_exact_partial : forall cfg : tcfg xr, lib_ok cfg -> forall cs itss, Forall2 (tcall_of cfg) itss cs ->
  whenever (fun s => concat itss <> [] -> exists l lo hi, listed s l /\ sumR (map snd l) = sumR (map snd (concat itss)) /\
      sumR (map (fun p => fst p * snd p) l)%R = sumR (map (fun p => fst p * snd p) (concat itss))%R /\
      t_min s = XFin lo /\ t_max s = XFin hi /\ leastR (map fst (concat itss)) lo /\ mostR (map fst (concat itss)) hi /\
      Forall (fun p => (lo <= fst p <= hi)%R /\ (0 < snd p)%R) l) (do_tcalls cfg td_new cs).
Proof. exact tcalls_exact. Qed.
Print Assumptions C28_exact_partial.

Example C28_nonvacuous :
  (do s <- tree_calls64 4 [Call (Items (map w64 [1; 5; 3]%Z)); Tree (fun _ l => rev l) [cen64 9 2; cen64 0 1; cen64 4 3; cen64 7 1] f1];
   do c <- td_count s; Ret (c, length (t_centroids s), in_order (t_centroids s))) = Ret (10%Z, 3, true).
Proof. vm_compute. reflexivity. Qed.

(* ------------------------------------------------------------------ *)
(** * C56 *)
Theorem C56_tree_sorted : forall F (FO : FloatOps F) (FL : FloatLaws F) (cfg : tcfg F) s xs g sh,
  whenever (fun s' => StronglySorted (fun a b => flt (mean a) (mean b) = true) (t_centroids s')) (add_cluster_tree cfg sh s xs g).
Proof. exact @tree_sorts. Qed.
Print Assumptions C56_tree_sorted.
Example C56_nonvacuous : gives (do s <- add_cluster_tree (lin_cfg 4) id_shuffle {| t_centroids := [cen64 8 1; cen64 2 1]; t_min := w64 2; t_max := w64 8; t_tick := 0 |} [cen64 5 1] (w64 9);
  Ret (map mean (t_centroids s))) (map w64 [2; 5; 8]%Z) = true.
Proof. vm_compute. reflexivity. Qed.
