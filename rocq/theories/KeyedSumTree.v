(** Model of KeyedSumTree (/repo/src/util/keyed_sum_tree.rs) and of TDigest::add_cluster_tree
    (/repo/src/t_digest/t_digest.rs), which is built on it. *)
From Coq Require Import List Arith ZArith Lia Bool Permutation.
From Verif Require Import Base Floats Digest TDigest.
Set Implicit Arguments.

Section Tree.
  Context {F : Type} {FO : FloatOps F}.

  (** util/keyed_sum_tree.rs:7-17: [Option<Box<KeyedSumNode>>], [Leaf] for [None]; the fields are key, weight, sum, left_child,
      right_child *)
  Inductive tree := Leaf | Node (key weight sum : F) (left right : tree).

  (** util/keyed_sum_tree.rs:23-31 *)
  Definition node_new (key weight : F) : tree := Node key weight weight Leaf Leaf.

  (** util/keyed_sum_tree.rs:66-81 [rightmost_child]: the detached node (its key, weight, sum; its children are gone) and what
      is left of the tree *)
  Fixpoint rightmost_child (t : tree) : option ((F * F * F) * tree) :=
    match t with
    | Leaf => None
    | Node k w s l r =>
      match r with
      | Leaf => None
      | Node rk rw rs rl rr =>
        match rightmost_child r with
        | Some (m, r') => Some (m, Node k w s l r')
        | None => Some ((rk, rw, rs), Node k w s l rl)
        end
      end
    end.

  (** util/keyed_sum_tree.rs:33-63 [KeyedSumNode::delete] (on [Leaf]: the guards of its two recursive calls) *)
  Fixpoint node_delete (t : tree) (target : F) : M tree :=
    match t with
    | Leaf => Ret Leaf
    | Node k w s l r =>
      do c <- cmp_unwrap target k;
      match c with
      | Lt => do l' <- node_delete l target; Ret (Node k w s l' r)
      | Gt => do r' <- node_delete r target; Ret (Node k w s l r')
      | Eq =>
        match l, r with
        | Leaf, _ => Ret r
        | _, Leaf => Ret l
        | Node lk lw ls ll lr, _ =>
          match rightmost_child l with
          | Some ((mk, mw, ms), l') => Ret (Node mk mw ms l' r)
          | None => Ret (Node lk lw ls ll r)
          end
        end
      end
    end.

  (** util/keyed_sum_tree.rs:83-91 [sorted_vec_key] *)
  Fixpoint node_vec (t : tree) : list (centroid F) :=
    match t with Leaf => [] | Node k w _ l r => node_vec l ++ Cen k w :: node_vec r end.

  (** util/keyed_sum_tree.rs:93-112 [closest_keys] of a node: the search path *)
  Fixpoint node_path (t : tree) (target : F) : M (list (centroid F)) :=
    match t with
    | Leaf => Ret []
    | Node k w _ l r =>
      do c <- cmp_unwrap target k;
      do p <- match c with Lt => node_path l target | Eq => Ret [] | Gt => node_path r target end;
      Ret (Cen k w :: p)
    end.

  (** util/keyed_sum_tree.rs:150-157 *)
  Record ktree := KT { kt_root : tree; kt_size : nat }.

  (** util/keyed_sum_tree.rs:177-182 *)
  Definition kt_new : ktree := KT Leaf 0.

  Definition node_sum (t : tree) : F := match t with Leaf => f0 | Node _ _ s _ _ => s end.

  (** util/keyed_sum_tree.rs:186-215: the loop of [less_than_sum], at a node *)
  Fixpoint node_less (t : tree) (key sum : F) : M F :=
    match t with
    | Leaf => Ret sum
    | Node k w _ l r =>
      do c <- cmp_unwrap key k;
      match c with
      | Lt | Eq => node_less l key sum
      | Gt =>
        let sum' := match l with Leaf => fadd sum w | _ => fadd sum (fadd w (node_sum l)) end in
        node_less r key sum'
      end
    end.

  (** util/keyed_sum_tree.rs:184-220 [less_than_sum] *)
  Definition less_than_sum (t : ktree) (key : F) : M (option F) :=
    match kt_root t with Leaf => Ret None | r => liftM (@Some F) (node_less r key f0) end.

  (** util/keyed_sum_tree.rs:231-264: the loop of [insert]; equal (or incomparable) keys panic *)
  Fixpoint node_insert (t : tree) (key weight : F) : M tree :=
    match t with
    | Leaf => Ret (node_new key weight)
    | Node k w s l r =>
      let s' := fadd s weight in
      if flt key k then do l' <- node_insert l key weight; Ret (Node k w s' l' r)
      else if flt k key then do r' <- node_insert r key weight; Ret (Node k w s' l r')
      else Panic
    end.

  (** util/keyed_sum_tree.rs:230-266 [insert] *)
  Definition kt_insert (t : ktree) (key weight : F) : M ktree :=
    do r <- node_insert (kt_root t) key weight; Ret (KT r (S (kt_size t))).

  (** util/keyed_sum_tree.rs:276-281 [delete]; [size -= 1] underflows at zero *)
  Definition kt_delete (t : ktree) (target : F) : M ktree :=
    do r <- node_delete (kt_root t) target;
    match kt_size t with O => Panic | S n => Ret (KT r n) end.

  (** util/keyed_sum_tree.rs:283-291 *)
  Definition sorted_vec_key (t : ktree) : list (centroid F) := node_vec (kt_root t).

  (** util/keyed_sum_tree.rs:293-316 [closest_keys] *)
  Definition closest_keys (t : ktree) (target : F) : M (list (centroid F)) :=
    match kt_root t with
    | Leaf => Ret []
    | r =>
      do path <- node_path r target;
      do omin <- min_by_key (fun c => fabs (fsub (mean c) target)) path;
      do m <- unwrap omin;
      Ret (filter (fun c => flt (fabs (fsub (fabs (fsub (mean c) target)) (fabs (fsub (mean m) target)))) (frat 1 1000)) path)
    end.

  (** util/keyed_sum_tree.rs:323-334 [From<&[Centroid]>] *)
  Definition kt_from (l : list (centroid F)) : M ktree :=
    foldM (fun t c => kt_insert t (mean c) (weight c)) kt_new l.

  (* ---------------------------------------------------------------- *)
  (** ** add_cluster_tree *)
  Variable cfg : tcfg F.
  (** [shuffle(&mut rng)]: the n-th shuffle performed, on the given centroids (any permutation) *)
  Variable shuffle : nat -> list (centroid F) -> list (centroid F).

  (** t_digest/t_digest.rs:454-481: the closest centroid with room, of minimal mean*weight. As in the code, the *mean* of the
      merged centroid is passed where its weight is expected. *)
  Definition pick_close (t : ktree) (total : F) (x : centroid F) (close : list (centroid F)) : M (option (centroid F)) :=
    foldM (fun best c =>
        let new_mean := mean (cen_add x c) in
        do ls <- less_than_sum t new_mean;
        if flt (fabs (k_size_from_weights cfg new_mean (match ls with Some v => v | None => f0 end) (fadd total (weight x)))) f1 then
          match best with
          | None => Ret (Some c)
          | Some o => Ret (if fgt (fmul (mean o) (weight o)) (fmul (mean c) (weight c)) then Some c else best)
          end
        else Ret best)
      None close.

  (** t_digest/t_digest.rs:451-507: where one cluster goes *)
  Definition tree_place (t : ktree) (total : F) (x : centroid F) : M ktree :=
    do close <- closest_keys t (mean x);
    match close with
    | [] => kt_insert t (mean x) (weight x)
    | _ =>
      do best <- pick_close t total x close;
      match best with
      | Some c =>
        do t' <- kt_delete t (mean c);
        kt_insert t' (fdiv (fadd (fmul (mean c) (weight c)) (fmul (mean x) (weight x))) (fadd (weight c) (weight x)))
                     (fadd (weight c) (weight x))
      | None => kt_insert t (mean x) (weight x)
      end
    end.

  (** t_digest/t_digest.rs:509-516: growth limit *)
  Definition tree_one (growth_limit : F) (st : tdigest F * ktree * F * nat) (x : centroid F) : M (tdigest F * ktree * F * nat) :=
    let '(s, t, total, n) := st in
    do t' <- tree_place t total x;
    let total' := fadd total (weight x) in
    do lim <- to_usize (fmul growth_limit (tc_cf cfg));
    if lim <? kt_size t' then
      let s1 := {| t_centroids := sorted_vec_key t'; t_min := t_min s; t_max := t_max s; t_tick := t_tick s |} in
      do s2 <- td_add_buffer cfg s1 [];
      do t2 <- kt_from (shuffle n (t_centroids s2));
      Ret (s2, t2, total', S n)
    else Ret (s, t', total', n).

  (** t_digest/t_digest.rs:443-520 [add_cluster_tree] *)
  Definition add_cluster_tree (s : tdigest F) (clusters : list (centroid F)) (growth_limit : F) : M (tdigest F) :=
    do s <- update_limits s clusters;
    do t <- kt_from (shuffle 0 (t_centroids s));
    do (s, t, _, _) <- foldM (tree_one growth_limit) (s, t, total_weight s, 1) clusters;
    Ret {| t_centroids := sorted_vec_key t; t_min := t_min s; t_max := t_max s; t_tick := t_tick s |}.
End Tree.
Arguments tree F : clear implicits.
Arguments ktree F : clear implicits.
