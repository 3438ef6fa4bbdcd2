(** Model of the t-digest: Centroid (/repo/src/t_digest/centroid.rs), TDigest (/repo/src/t_digest/t_digest.rs) with its
    merging, clustering and query methods, ParTDigest (/repo/src/t_digest/par_t_digest.rs), [weighted_average]
    (/repo/src/util/mod.rs). *)
From Coq Require Import List Arith ZArith Lia Bool Permutation.
From Verif Require Import Base Floats Digest.
Set Implicit Arguments.

(** [slice::last] *)
Fixpoint last_error {A} (l : list A) : option A :=
  match l with [] => None | [a] => Some a | _ :: l' => last_error l' end.

Section TDigest.
  Context {F : Type} {FO : FloatOps F}.

  (** centroid.rs:4-14 *)
  Record centroid := Cen { mean : F; weight : F }.

  (** centroid.rs:33-39 and 48-54 ([Add] for values and for references, same body) *)
  Definition cen_add (a b : centroid) : centroid :=
    let new_weight := fadd (weight a) (weight b) in
    Cen (fdiv (fadd (fmul (mean a) (weight a)) (fmul (mean b) (weight b))) new_weight) new_weight.

  (** util/mod.rs:11-19 *)
  Definition weighted_average (x1 w1 x2 w2 : F) : F :=
    let weighted := fdiv (fadd (fmul x1 w1) (fmul x2 w2)) (fadd w1 w2) in
    let mx := fmax x1 x2 in
    let mn := fmin x1 x2 in
    fmax mn (fmin weighted mx).

  (** The parameters of a digest: the two closures, the compression factor (t_digest/t_digest.rs:18-25), and the unspecified
      library behaviour: [tc_sort n l] is the outcome of the n-th unstable parallel sort, on the list [l];
      [tc_search n l x] the outcome of the n-th [binary_search_by], on means [l] for the value [x] (the index, whether
      found or not). *)
  Record tcfg := {
    tc_scale : F -> F -> F -> F;
    tc_inv : F -> F -> F -> F;
    tc_cf : F;
    tc_sort : nat -> list centroid -> list centroid;
    tc_search : nat -> list F -> F -> nat;
  }.

  (** t_digest/t_digest.rs:11-30; [t_tick] numbers the library calls *)
  Record tdigest := TD { t_centroids : list centroid; t_min : F; t_max : F; t_tick : nat }.

  Variable cfg : tcfg.

  (** t_digest/t_digest.rs:285-294 [new] *)
  Definition td_new : tdigest := {| t_centroids := []; t_min := fmaxval; t_max := fminval; t_tick := 0 |}.

  (** t_digest/t_digest.rs:593-601 [total_weight] (f64 accumulator) *)
  Definition sum_weights (l : list centroid) : F := fsum64 (map weight l).
  Definition total_weight (s : tdigest) : F := sum_weights (t_centroids s).

  (** t_digest/t_digest.rs:308: [par_sort_unstable_by(|a, b| a.mean.partial_cmp(&b.mean).unwrap())] *)
  Definition sort_centroids (tick : nat) (l : list centroid) : M (list centroid) :=
    match l with
    | [] | [_] => Ret l
    | _ => if existsb (fun c => fisnan (mean c)) l then Panic else Ret (tc_sort cfg tick l)
    end.

  (** t_digest/t_digest.rs:321-328 [get_w_limit] *)
  Definition w_limit (n w0 : F) : F :=
    fmul (tc_inv cfg (fadd (tc_scale cfg (fdiv w0 n) (tc_cf cfg) n) f1) (tc_cf cfg) n) n.

  (** t_digest/t_digest.rs:335-355: the merge loop; [mw], [ms] are [mergeable_weight], [mergeable_sum] *)
  Fixpoint merge_go (n w0 lim mw ms : F) (rest : list centroid) : list centroid :=
    match rest with
    | [] => [Cen (fdiv ms mw) mw]
    | c :: rest' =>
      let new_w := fadd mw (weight c) in
      if fle new_w lim then merge_go n w0 lim new_w (fadd ms (fmul (mean c) (weight c))) rest'
      else
        let w0' := fadd w0 mw in
        Cen (fdiv ms mw) mw :: merge_go n w0' (fsub (w_limit n w0') w0') (weight c) (fmul (mean c) (weight c)) rest'
    end.

  (** t_digest/t_digest.rs:320-360: from the sorted buffer to the new centroids *)
  Definition merge_all (buffer : list centroid) : list centroid :=
    match buffer with
    | [] => []
    | c :: rest =>
      let n := sum_weights buffer in
      merge_go n f0 (w_limit n f0) (weight c) (fmul (mean c) (weight c)) rest
    end.

  (** t_digest/t_digest.rs:301-361 [add_centroid_buffer] *)
  Definition add_centroid_buffer (s : tdigest) (buffer : list centroid) : M tdigest :=
    let buffer := buffer ++ t_centroids s in
    match buffer with
    | [] => Ret s
    | _ =>
      do sorted <- sort_centroids (t_tick s) buffer;
      do first <- unwrap (head sorted);
      do last <- unwrap (last_error sorted);
      Ret {| t_centroids := merge_all sorted;
             t_min := fmin (t_min s) (mean first);
             t_max := fmax (t_max s) (mean last);
             t_tick := S (t_tick s) |}
    end.

  (** t_digest/t_digest.rs:49-54 and 56-66 *)
  Definition unit_cen (x : F) : centroid := Cen x f1.
  Definition td_add (s : tdigest) (item : F) : M tdigest := add_centroid_buffer s [unit_cen item].
  Definition td_add_buffer (s : tdigest) (buffer : list F) : M tdigest := add_centroid_buffer s (map unit_cen buffer).

  (** t_digest/t_digest.rs:268-270 [count] *)
  Definition td_count (s : tdigest) : M Z := unwrap (ftoZ (total_weight s)).

  (** t_digest/t_digest.rs:130-137: weight of the run of centroids whose mean equals [item] *)
  Fixpoint run_weight (item : F) (acc : F) (cs : list centroid) : F :=
    match cs with
    | [] => acc
    | c :: cs' => if feq (mean c) item then run_weight item (fadd acc (weight c)) cs' else acc
    end.

  (** t_digest/t_digest.rs:144-186: interpolation between two neighbouring centroids *)
  Definition interp_q (item total wsf : F) (c d : centroid) : F :=
    if fgt (fsub (mean d) (mean c)) f0 then
      if feq (weight c) f1 && feq (weight d) f1 then fdiv (fadd wsf f1) total
      else
        let le := if feq (weight c) f1 then fhalf else f0 in
        let re := if feq (weight c) f1 then f0 else if feq (weight d) f1 then fhalf else f0 in
        let dw := fdiv (fadd (weight c) (weight d)) f2 in
        let dw_no_singleton := fsub (fsub dw le) re in
        let base := fadd (fadd wsf (fdiv (weight c) f2)) le in
        fdiv (fadd base (fdiv (fmul dw_no_singleton (fsub item (mean c))) (fsub (mean d) (mean c)))) total
    else
      let dw := fdiv (fadd (weight c) (weight d)) f2 in
      fdiv (fadd wsf dw) total.

  (** t_digest/t_digest.rs:127-200: the scan over the centroids, on the not yet visited suffix [cs] *)
  Fixpoint est_q_loop (item total : F) (last : centroid) (wsf : F) (cs : list centroid) : M F :=
    match cs with
    | c :: ((d :: _) as rest) =>
      if feq (mean c) item then
        let dw := run_weight item f0 cs in
        if feq (weight c) dw && feq dw f1 then Ret (fdiv wsf total)
        else Ret (fdiv (fadd wsf (fdiv dw f2)) total)
      else if fle (mean c) item && flt item (mean d) then Ret (interp_q item total wsf c d)
      else est_q_loop item total last (fadd wsf (weight c)) rest
    | _ =>
      if feq item (mean last) then
        if feq (weight last) f1 then Ret (fdiv wsf total) else Ret (fsub f1 (fdiv fhalf total))
      else Panic
    end.

  (** t_digest/t_digest.rs:68-202 [est_quantile_at_value] *)
  Definition td_est_q (s : tdigest) (item : F) : M F :=
    match t_centroids s with
    | [] => Ret fnan
    | [_] =>
      let width := fsub (t_max s) (t_min s) in
      Ret (if flt item (t_min s) then f0
           else if fgt item (t_max s) then f1
           else if fle (fsub item (t_min s)) width then fhalf
           else fdiv (fsub item (t_min s)) width)
    | first :: _ =>
      if flt item (t_min s) then Ret f0
      else if fgt item (t_max s) then Ret f1
      else
        let total := total_weight s in
        do last <- unwrap (last_error (t_centroids s));
        if flt item (mean first) then
          Ret (if fgt (fsub (mean first) (t_min s)) f0 then
                 if feq item (t_min s) then fdiv fhalf total
                 else fdiv (fadd f1 (fmul (fdiv (fsub item (t_min s)) (fsub (mean first) (t_min s)))
                                          (fsub (fdiv (weight first) f2) f1))) total
               else f0)
        else if fgt item (mean last) then
          Ret (if fgt (fsub (t_max s) (mean last)) f0 then
                 if feq item (t_max s) then fsub f1 (fdiv fhalf total)
                 else fsub f1 (fdiv (fadd f1 (fmul (fdiv (fsub (t_max s) item) (fsub (t_max s) (mean last)))
                                                   (fsub (fdiv (weight last) f2) f1))) total)
               else f1)
        else est_q_loop item total last f0 (t_centroids s)
    end.

  (** t_digest/t_digest.rs:236-261: the loop of [est_value_at_quantile], over the not yet visited suffix; an index out of bounds
      panics; [None]: the loop ran to its end *)
  Fixpoint est_v_loop (iters : nat) (ti : F) (cw : F) (cs : list centroid) : M (option F) :=
    match iters with
    | O => Ret None
    | S iters' =>
      match cs with
      | curr :: ((next :: _) as rest) =>
        let dw := fdiv (fadd (weight curr) (weight next)) f2 in
        if fgt (fadd cw dw) ti then
          Ret (Some (
            if feq (weight curr) f1 && flt (fsub ti cw) fhalf then mean curr
            else if feq (weight next) f1 && fle (fsub (fadd cw dw) ti) fhalf then mean next
            else
              let z1 := fsub (fsub ti cw) fhalf in
              let z2 := fsub (fsub (fadd cw dw) ti) fhalf in
              weighted_average (mean curr) z2 (mean next) z1))
        else est_v_loop iters' ti (fadd cw dw) rest
      | _ => Panic
      end
    end.

  (** t_digest/t_digest.rs:204-266 [est_value_at_quantile] *)
  Definition td_est_v (s : tdigest) (q : F) : M F :=
    let total := total_weight s in
    let ti := fmul total q in
    if flt ti f1 then Ret (t_min s) else
    do first <- unwrap (head (t_centroids s));
    if fgt (weight first) f1 && flt ti (fdiv (weight first) f2) then
      Ret (fadd (t_min s) (fmul (fdiv (fsub ti f1) (fsub (fdiv (weight first) f2) f1)) (fsub (mean first) (t_min s))))
    else if fgt ti (fsub total f1) then Ret (t_max s)
    else
      do last <- unwrap (last_error (t_centroids s));
      if fgt (weight last) f1 && fle (fsub total ti) (fdiv (weight last) f2) then
        Ret (fsub (t_max s) (fdiv (fsub (fsub total ti) f1) (fsub (fdiv (weight last) f2) f1)))
      else
        do iters <- to_usize total;
        do r <- est_v_loop iters ti (fdiv (weight first) f2) (t_centroids s);
        match r with
        | Some v => Ret v
        | None =>
          let z1 := fsub (fsub ti total) (fdiv (weight last) f2) in
          let z2 := fsub (fdiv (weight last) f2) z1 in
          Ret (weighted_average (mean last) z1 (t_max s) z2)
        end.

  (** t_digest/t_digest.rs:43-271: the trait implementation; the queries do not change the digest *)
  #[universes(polymorphic)] Definition t_digest : digest F := {|
    dst := tdigest;
    d_add := td_add;
    d_add_buffer := td_add_buffer;
    d_est_q := fun s v => do a <- td_est_q s v; Ret (s, a);
    d_est_v := fun s q => do a <- td_est_v s q; Ret (s, a);
    d_count := td_count;
  |}.

  (* ---------------------------------------------------------------- *)
  (** ** Clustering *)

  (** t_digest/t_digest.rs:650-668 [update_limits] *)
  Definition update_limits (s : tdigest) (cs : list centroid) : M tdigest :=
    do omin <- min_by_key (fun x => x) (map mean cs);
    do omax <- max_by_key (fun x => x) (map mean cs);
    Ret {| t_centroids := t_centroids s;
           t_min := fmin (match omin with Some m => m | None => fpinf end) (t_min s);
           t_max := fmax (match omax with Some m => m | None => fninf end) (t_max s);
           t_tick := t_tick s |}.

  (** [binary_search_by(|probe| probe.mean.partial_cmp(&x).unwrap())]: every comparison it makes may panic on a NaN; a NaN
      among the means is taken to panic whenever there is a mean at all (a binary search of a non-empty slice compares at
      least once; whether it meets the NaN depends on the implementation, so the model is only used on NaN-free
      means). *)
  Definition binary_search (tick : nat) (cs : list centroid) (x : F) : M nat :=
    match cs with
    | [] => Ret 0
    | _ => if fisnan x || existsb (fun c => fisnan (mean c)) cs then Panic
           else Ret (tc_search cfg tick (map mean cs) x)
    end.

  Definition nth_cen (cs : list centroid) (i : nat) : M centroid := unwrap (nth_error cs i).

  (** t_digest/t_digest.rs:566-568: [while left_index > 0 && centroids[left_index - 1].mean - target == dist] *)
  Fixpoint shift_left (cs : list centroid) (target dist : F) (li : nat) : M nat :=
    match li with
    | O => Ret O
    | S l' => do c <- nth_cen cs l';
              if feq (fsub (mean c) target) dist then shift_left cs target dist l' else Ret li
    end.
  (** t_digest/t_digest.rs:569-573: [while right_index < len - 1 && centroids[right_index + 1].mean - target == dist];
      [fuel] bounds the number of steps *)
  Fixpoint shift_right (fuel : nat) (cs : list centroid) (target dist : F) (right : nat) : M nat :=
    if S right <? length cs then
      do c <- nth_cen cs (S right);
      if feq (fsub (mean c) target) dist then
        match fuel with O => Diverge | S fuel' => shift_right fuel' cs target dist (S right) end
      else Ret right
    else Ret right.

  (** t_digest/t_digest.rs:527-575 [find_closest_centroids]; the returned pair is the range [left..right] *)
  Definition find_closest (tick : nat) (cs : list centroid) (target : F) : M (option (nat * nat)) :=
    match cs with
    | [] => Ret None
    | _ =>
      do index <- binary_search tick cs target;
      do (dist, (li, ri)) <-
        (if index =? 0 then do c <- nth_cen cs index; Ret (fsub (mean c) target, (index, S index))
         else if index =? length cs then
           do c <- nth_cen cs (index - 1); Ret (fsub (mean c) target, (index - 1, index))
         else
           do lo <- nth_cen cs (index - 1);
           do hi <- nth_cen cs index;
           let lower_diff := fsub (mean lo) target in
           let higher_diff := fsub (mean hi) target in
           Ret (if fle lower_diff higher_diff then lower_diff else higher_diff, (index, S index)));
      do li <- shift_left cs target dist li;
      do ri <- shift_right (length cs) cs target dist ri;
      Ret (Some (li, ri))
    end.

  (** t_digest/t_digest.rs:581-590 [weight_left] *)
  Definition weight_left (cs : list centroid) (target : F) : F :=
    fsum64 (map weight (filter (fun c => flt (mean c) target) cs)).

  (** t_digest/t_digest.rs:616-621 [k_size_from_weights] *)
  Definition k_size_from_weights (w wl new_total : F) : F :=
    let q_left := fdiv wl new_total in
    let q_right := fadd q_left (fdiv w new_total) in
    fsub (tc_scale cfg q_right (tc_cf cfg) new_total) (tc_scale cfg q_left (tc_cf cfg) new_total).

  (** t_digest/t_digest.rs:605-614 [k_size] *)
  Definition k_size (cs : list centroid) (target : centroid) (total : F) : F :=
    k_size_from_weights (weight target) (weight_left cs (mean target)) (fadd total (weight target)).

  (** t_digest/t_digest.rs:375-393: the index with room, of minimal mean*weight, among [left..right] *)
  Definition pick_index (cs : list centroid) (x : centroid) (total : F) (left right : nat) : M (option nat) :=
    foldM (fun best i =>
        do c <- nth_cen cs i;
        if flt (fabs (k_size cs (cen_add x c) total)) f1 then
          match best with
          | None => Ret (Some i)
          | Some o =>
            do co <- nth_cen cs o;
            Ret (if fgt (fmul (mean co) (weight co)) (fmul (mean c) (weight c)) then Some i else best)
          end
        else Ret best)
      None (seq left (right - left)).

  (** [Vec::insert]: panics if the index exceeds the length *)
  Definition vec_insert (cs : list centroid) (i : nat) (x : centroid) : M (list centroid) :=
    if i <=? length cs then Ret (firstn i cs ++ x :: skipn i cs) else Panic.

  Definition set_centroids (s : tdigest) (cs : list centroid) : tdigest :=
    {| t_centroids := cs; t_min := t_min s; t_max := t_max s; t_tick := S (t_tick s) |}.

  (** t_digest/t_digest.rs:371-434: one cluster *)
  Definition cluster_one (growth_limit : F) (st : tdigest * F) (x : centroid) : M (tdigest * F) :=
    let '(s, total) := st in
    let cs := t_centroids s in
    do close <- find_closest (t_tick s) cs (mean x);
    do best <- match close with Some (l, r) => pick_index cs x total l r | None => Ret None end;
    let total := fadd total (weight x) in
    do s' <- match best with
             | Some i =>
               do m <- nth_cen cs i;
               let m' := Cen (fdiv (fadd (fmul (mean m) (weight m)) (fmul (mean x) (weight x))) (fadd (weight m) (weight x)))
                             (fadd (weight m) (weight x)) in
               Ret (set_centroids s (set_nth cs i m'))
             | None =>
               do i <- binary_search (S (t_tick s)) cs (mean x);
               do cs' <- vec_insert cs i x;
               Ret (set_centroids (set_centroids s cs) cs')
             end;
    do lim <- to_usize (fmul growth_limit (tc_cf cfg));
    if lim <? length (t_centroids s') then do s'' <- td_add_buffer s' []; Ret (s'', total) else Ret (s', total).

  (** t_digest/t_digest.rs:368-436 [add_cluster] *)
  Definition add_cluster (s : tdigest) (clusters : list centroid) (growth_limit : F) : M tdigest :=
    do s <- update_limits s clusters;
    do (s, _) <- foldM (cluster_one growth_limit) (s, total_weight s) clusters;
    Ret s.

  (* ---------------------------------------------------------------- *)
  (** ** ParTDigest *)

  (** t_digest/par_t_digest.rs:7-20; [creator] is a closure returning a digest: here any initial digest (the code base only uses
      [TDigest::new]); the chunks' temporary digests share the configuration. *)
  Record pardigest := ParTD { pt_digest : tdigest; pt_buffer : list F }.
  Variables (pt_threads pt_capacity : nat) (pt_creator : tdigest).

  (** t_digest/par_t_digest.rs:49-57 *)
  Definition pt_new : pardigest := {| pt_digest := pt_creator; pt_buffer := [] |}.

  (** t_digest/par_t_digest.rs:59-89 [flush]; [par_chunks(0)] panics *)
  Definition pt_flush (s : pardigest) : M pardigest :=
    match pt_buffer s with
    | [] => Ret s
    | _ =>
      do cs <- chunks pt_threads (pt_buffer s);
      do ds <- mapM (fun chunk => td_add_buffer pt_creator chunk) cs;
      do omin <- min_by_key t_min ds; do dmin <- unwrap omin;
      do omax <- max_by_key t_max ds; do dmax <- unwrap omax;
      let d := {| t_centroids := t_centroids (pt_digest s); t_min := t_min dmin; t_max := t_max dmax;
                  t_tick := t_tick (pt_digest s) |} in
      do d' <- add_centroid_buffer d (flat_map t_centroids ds);
      Ret {| pt_digest := d'; pt_buffer := [] |}
    end.

  (** t_digest/par_t_digest.rs:109-115 *)
  Definition pt_add_buffer (s : pardigest) (items : list F) : M pardigest :=
    let s' := {| pt_digest := pt_digest s; pt_buffer := pt_buffer s ++ items |} in
    if pt_capacity <? length (pt_buffer s') then pt_flush s' else Ret s'.
  (** t_digest/par_t_digest.rs:103-108 *)
  Definition pt_add (s : pardigest) (item : F) : M pardigest := pt_add_buffer s [item].

  (** t_digest/par_t_digest.rs:96-128 *)
  #[universes(polymorphic)] Definition par_t_digest : digest F := {|
    dst := pardigest;
    d_add := pt_add;
    d_add_buffer := pt_add_buffer;
    d_est_q := fun s v => do s' <- pt_flush s; do a <- td_est_q (pt_digest s') v; Ret (s', a);
    d_est_v := fun s q => do s' <- pt_flush s; do a <- td_est_v (pt_digest s') q; Ret (s', a);
    d_count := fun s => do n <- td_count (pt_digest s); Ret (n + Z.of_nat (length (pt_buffer s)))%Z;
  |}.

  (* ---------------------------------------------------------------- *)
  (** ** Contract of the library calls *)
  (** sorting: a permutation, ascending; searching: an index with everything before it at most, and everything from it on
      at least, the searched value -- for sorted input (unspecified otherwise, but never beyond the length) *)
  Record lib_ok : Prop := {
    lo_perm : forall n l, Permutation (tc_sort cfg n l) l;
    lo_sorted : forall n l, Forall (fun c => fisnan (mean c) = false) l ->
      forall i j a b, i < j -> nth_error (tc_sort cfg n l) i = Some a -> nth_error (tc_sort cfg n l) j = Some b ->
      fle (mean a) (mean b) = true;
    lo_search_len : forall n l x, tc_search cfg n l x <= length l;
    lo_search : forall n l x, fisnan x = false -> Forall (fun a => fisnan a = false) l ->
      (forall i j a b, i < j -> nth_error l i = Some a -> nth_error l j = Some b -> fle a b = true) ->
      (forall i a, i < tc_search cfg n l x -> nth_error l i = Some a -> fle a x = true) /\
      (forall i a, tc_search cfg n l x <= i -> nth_error l i = Some a -> fle x a = true) /\
      (forall a, In a l -> feq a x = true -> exists b, nth_error l (tc_search cfg n l x) = Some b /\ feq b x = true);
  }.
End TDigest.
Arguments centroid F : clear implicits.
Arguments tcfg F : clear implicits.
Arguments tdigest F : clear implicits.
Arguments pardigest F : clear implicits.
Arguments lib_ok {F FO} cfg.
