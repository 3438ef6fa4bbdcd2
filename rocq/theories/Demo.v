(** Model of the example programs: /repo/examples/demo.rs (everything up to the plotting, which only draws the points
    computed here) and the helper functions of /repo/examples/accuracy.rs; and proofs about them. *)
From Coq Require Import List Arith ZArith NArith Lia Bool Permutation Reals Lra.
From Flocq Require Import Core.
From Verif Require Import Base Floats XReal IEEE Digest Spec FloatFacts History LinearProofs TDigest TDigestProofs TDigestTop TDigestRange TDigestRange3
  RCSketch RCProofs RCHist RCRank RCTop RCObs RCObs2 Util MultiSymProofs.
Set Implicit Arguments.
Set Universe Polymorphism.
Unset Universe Minimization ToSet.

(* ------------------------------------------------------------------ *)
(** * Definitions *)
Section Defs.
  Context {F : Type} {FO : FloatOps F}.

  (** demo.rs:19-20: the test function for a quantile *)
  Definition demo_test (q : F) (E : digest F) (s : dst E) : M F := do (_, a) <- d_est_v E s q; Ret a.
  (** demo.rs:22: [|a, _| a * 1e3] *)
  Definition demo_error (measured _actual : F) : F := fmul measured (fofZ 1000).
  (** demo.rs:24-30; [k] is [accuracy_param as usize], 4 in demo.rs:53 *)
  Definition demo_rc (lg : F -> F) (k : nat) (dataset : list F) : M (rc F) :=
    do s <- rc_new lg (length dataset) k; d_add_buffer rc_digest s dataset.
  (** demo.rs:32-36 *)
  Definition demo_linear (dataset : list F) : M (list F) := Ret (linear_add_buffer linear_new dataset).
  (** demo.rs:38-50; [cfg] holds the scale functions and the compression factor, [chunk] is T_DIGEST_CHUNK_SIZE (demo.rs:9) *)
  Definition demo_t (cfg : tcfg F) (chunk : nat) (dataset : list F) : M (tdigest F) :=
    do cs <- chunks chunk dataset; foldM (d_add_buffer (t_digest cfg)) td_new cs.
  (** demo.rs:79-90, 99-110, 119-130: the datapoints of one line of the plot *)
  Definition demo_line (D : digest F) (create : list F -> M (dst D)) (dataset quantiles : list F) : M (list (F * list F)) :=
    mapM (fun q => do m <- sample_digest_accuracy D (fun _ => dataset) (fun _ => create) (demo_test q) demo_error 1; Ret (q, m))
      quantiles.

  (** accuracy.rs:1871-1877 *)
  Definition absolute_error (measured actual : F) : F := fabs (fsub measured actual).
  (** accuracy.rs:1879-1902 *)
  Definition relative_error (measured actual : F) : F :=
    if feq actual (fofZ 0) then fabs measured else fdiv (fabs (fsub measured actual)) (fabs actual).
  (** accuracy.rs:551-554: one query after the other on the same digest *)
  Fixpoint values_in (values : list F) (quantiles : list F) : M (list F) :=
    match quantiles with
    | [] => Ret []
    | q :: qs => do (values', a) <- linear_est_v values q; do rest <- values_in values' qs; Ret (a :: rest)
    end.
  (** accuracy.rs:545-555 *)
  Definition values_from_quantiles (dataset quantiles : list F) : M (list F) :=
    values_in (linear_add_buffer linear_new dataset) quantiles.
End Defs.

(* ------------------------------------------------------------------ *)
(** * Specification: what an exact value answer is *)
Section Spec.
  Context {F : Type} {FO : FloatOps F} {FL : FloatLaws F}.
  (** [q] is a number between 0 and 1 *)
  Definition a_quantile (q : F) : Prop := exists r, fval q = XFin r /\ (0 <= r <= 1)%R.
  (** [x] is the item of [l] at the position (counted from 0 in the sorted data) nearest to q * length, the last one at the end *)
  Definition exact_value (l : list F) (q x : F) : Prop :=
    exists r p, fval q = XFin r /\ frnd (r * INR (length l)) = XFin p /\ (0 <= p <= INR (length l))%R /\
      order_stat l (Nat.min (Z.to_nat (ZnearestA p)) (length l - 1)) x.
  (** a non-empty dataset without NaN of a length the float type can count *)
  Definition usable (l : list F) : Prop :=
    l <> [] /\ no_nan l /\ (Z.of_nat (length l) <= fint)%Z /\ (Z.of_nat (length l) < 2 ^ 64)%Z.
  (** the point of the plot for quantile [q]: the estimate is [x] *)
  Definition point (P : F -> F -> Prop) (q : F) (pt : F * list F) : Prop :=
    exists x, P q x /\ pt = (q, [fmul x (fofZ 1000)]).
End Spec.

(* ------------------------------------------------------------------ *)
(** * Proofs *)
Section Proofs.
  Context {F : Type} {FO : FloatOps F} {FL : FloatLaws F}.

  Lemma linear_exact l q : usable l -> a_quantile q ->
    always (fun res => Permutation l (fst res) /\ exact_value l q (snd res)) (linear_est_v l q).
  Proof.
    intros (Hne & Hn & H1 & H2) (r & Hr & Hr').
    destruct (@linear_est_v_ok F FO FL l q r Hne Hn H1 H2 Hr Hr') as (p & Hp & Hp' & Ha).
    eapply always_mono; [exact Ha|]. intros res [A B]. split; [exact A|]. exists r, p. auto.
  Qed.

  Lemma usable_perm l l' : Permutation l l' -> usable l -> usable l'.
  Proof.
    intros HP (A & B & C & D). unfold usable. rewrite <- (Permutation_length HP). repeat split; auto.
    - intros ->. apply Permutation_sym, Permutation_nil in HP. congruence.
    - unfold no_nan in *. eapply Permutation_Forall; eauto.
  Qed.

  Lemma exact_perm l l' q x : Permutation l l' -> exact_value l' q x -> exact_value l q x.
  Proof.
    intros HP (r & p & A & B & C & D & E). exists r, p. rewrite <- (Permutation_length HP) in *. repeat split; auto; try tauto.
    - eapply Permutation_in; [apply Permutation_sym; exact HP|exact D].
    - rewrite (n_lt_perm x HP). apply E.
    - rewrite (n_le_perm x HP). apply E.
  Qed.

  Lemma values_exact qs : Forall a_quantile qs -> forall l, usable l ->
    always (fun xs => Forall2 (exact_value l) qs xs) (values_in l qs).
  Proof.
    induction 1 as [|q qs Hq Hqs IH]; intros l Hl; cbn [values_in always]; [constructor|].
    eapply always_bind; [exact (linear_exact Hl Hq)|]. intros [l' a] [HP Ha]; cbn [fst snd] in *.
    eapply always_bind; [exact (IH l' (usable_perm HP Hl))|]. intros xs Hxs. cbn [always]. constructor; [exact Ha|].
    clear - HP Hxs. induction Hxs; constructor; auto. eapply exact_perm; eauto.
  Qed.

  Theorem values_from_quantiles_exact dataset qs : usable dataset -> Forall a_quantile qs ->
    always (fun xs => Forall2 (exact_value dataset) qs xs) (values_from_quantiles dataset qs).
  Proof. intros H Hq. apply values_exact; auto. Qed.

  (** one line of the plot, given what the digest's value query answers *)
  Lemma demo_line_ok (D : digest F) create dataset qs (P : F -> F -> Prop) : usable dataset -> Forall a_quantile qs ->
    (forall q, a_quantile q -> always (fun s => always (fun r => P q (snd r)) (d_est_v D s q)) (create dataset)) ->
    always (fun pts => Forall2 (point P) qs pts) (demo_line D create dataset qs).
  Proof.
    intros Hd Hq Hc. unfold demo_line. apply mapM_always. eapply Forall_impl; [|exact Hq]. intros q Hqq. cbn beta.
    eapply always_bind with (P := fun m => exists x, P q x /\ m = [fmul x (fofZ 1000)]).
    - unfold sample_digest_accuracy. cbn [seq mapM]. eapply always_bind with (P := fun e => exists x, P q x /\ e = fmul x (fofZ 1000)).
      + unfold sample_one. eapply always_bind; [exact (Hc q Hqq)|]. intros s Hs. cbn beta in Hs.
        eapply always_bind with (P := fun x => P q x).
        { unfold demo_test. eapply always_bind; [exact Hs|]. intros [s' x] Hx. exact Hx. }
        intros x Hx. eapply always_bind with (P := fun _ => True).
        { unfold demo_test. eapply always_bind; [exact (linear_exact Hd Hqq)|]. intros [l' y] _. exact I. }
        intros y _. cbn [always]. exists x. split; [exact Hx|reflexivity].
      + intros e (x & Hx & ->). cbn [bind always]. exists x. auto.
    - intros m (x & Hx & ->). cbn [always]. exists x. auto.
  Qed.

  Theorem demo_linear_line dataset qs : usable dataset -> Forall a_quantile qs ->
    always (fun pts => Forall2 (point (exact_value dataset)) qs pts) (demo_line (@linear_digest F FO) demo_linear dataset qs).
  Proof.
    intros Hd Hq. apply demo_line_ok; auto. intros q Hqq. unfold demo_linear. cbn [always].
    eapply always_mono; [exact (linear_exact Hd Hqq)|]. intros r [_ H]. exact H.
  Qed.

  Theorem demo_rc_line lg k dataset qs : usable dataset -> Forall a_quantile qs ->
    rc_params lg (length dataset) k -> Nat.even k = true -> (N.of_nat (length dataset / k) <= u32_max)%N ->
    always (fun pts => Forall2 (point (fun _ x => In x dataset)) qs pts) (demo_line rc_digest (demo_rc lg k) dataset qs).
  Proof.
    intros Hd Hq Hp He Hu. apply demo_line_ok; auto. intros q Hqq. destruct Hd as (Hne & Hn & _).
    unfold demo_rc. rewrite (rc_new_val Hp). cbn [bind]. set (n := length dataset) in *.
    pose proof Hp as (Hk & _).
    assert (reached n k (rc_fresh n k) []) as H0 by (exists []; repeat split; constructor).
    eapply always_mono; [exact (@reached_step F FO FL n k (rc_fresh n k) [] (RBuf dataset) Hk Hu H0 (Forall_nil _) eq_refl eq_refl Hn (le_n n))|].
    cbn [app ritems]. intros s Hs.
    destruct (reached_facts Hk Hu Hs Hn (le_n n)) as (_ & _ & B3 & B4 & B5 & B6).
    cbn [d_est_v rc_digest]. eapply always_bind; [apply rc_est_value_ok; auto|]. intros x Hx. cbn [always snd]. auto.
  Qed.

  (** filling chunk by chunk is the history of one [add_buffer] per chunk *)
  Lemma fold_exec (D : digest F) (cs : list (list F)) : forall s (Q : dst D -> Prop),
    always (fun r => Q (fst r)) (exec D s (map AddBuf cs)) -> always Q (foldM (d_add_buffer D) s cs).
  Proof.
    induction cs as [|c cs IH]; intros s Q H; cbn [map exec foldM always fst] in *; [exact H|].
    cbn [step] in H. rewrite !always_bind_iff in H.
    eapply always_bind; [exact H|]. intros s' Hs'. cbn [always] in Hs'. apply IH.
    rewrite always_bind_iff in Hs'. eapply always_mono; [exact Hs'|]. intros [s'' b] Hr. exact Hr.
  Qed.

  Lemma items_bufs (cs : list (list F)) : items_of (map (@AddBuf F) cs) = concat cs.
  Proof. induction cs as [|c cs IH]; [reflexivity|]. unfold items_of in *. cbn [map flat_map concat]. now rewrite IH. Qed.

  Lemma demo_t_line (cfg : tcfg F) chunk dataset qs : usable dataset -> Forall a_quantile qs -> 1 <= chunk ->
    always (fun r => forall q p, fval q = XFin p -> (0 <= p <= 1)%R -> exists a, d_est_v (t_digest cfg) (fst r) q = Ret (fst r, a))
      (exec (t_digest cfg) td_new (map AddBuf (chunks_list chunk dataset))) ->
    always (fun pts => Forall2 (point (fun _ _ => True)) qs pts) (demo_line (t_digest cfg) (demo_t cfg chunk) dataset qs).
  Proof.
    intros Hd Hq Hc H. apply demo_line_ok; auto. intros q (p & Hp & Hp').
    unfold demo_t, chunks. destruct chunk as [|c]; [lia|]. cbn [bind].
    apply fold_exec. eapply always_mono; [exact H|]. cbn beta. intros r Hr. destruct (Hr q p Hp Hp') as (a & Ha).
    match goal with |- always _ ?m => replace m with (Ret (fst r, a)) by (symmetry; exact Ha) end. exact I.
  Qed.

  Lemma forall_chunks (P : F -> Prop) c l : 1 <= c -> Forall P l -> Forall (Forall P) (chunks_list c l).
  Proof.
    intros Hc Hl. rewrite <- (chunks_list_concat l Hc) in Hl. revert Hl. generalize (chunks_list c l). clear.
    induction l as [|a l IH]; cbn [concat]; intros H; constructor; apply Forall_app in H as [A B]; auto.
  Qed.

  (** ** the error functions *)
  Lemma absolute_val m t a b : fval m = XFin a -> fval t = XFin b -> fval (absolute_error m t) = xabs (frnd (a - b)).
  Proof. intros Hm Ht. unfold absolute_error. rewrite fabs_val. f_equal. now apply fsub_fin. Qed.

  Lemma relative_zero m t a : fval m = XFin a -> fval t = XFin 0 -> fval (relative_error m t) = XFin (Rabs a).
  Proof.
    intros Hm Ht. unfold relative_error.
    assert (feq t (fofZ 0) = true) as ->.
    { apply feq_iff. rewrite Ht. split; [symmetry; apply fval_f0|discriminate]. }
    rewrite fabs_val, Hm. reflexivity.
  Qed.

  Lemma relative_val m t a b d : fval m = XFin a -> fval t = XFin b -> b <> 0%R -> frnd (a - b) = XFin d ->
    fval (relative_error m t) = frnd (Rabs d / Rabs b).
  Proof.
    intros Hm Ht Hb Hd. unfold relative_error.
    assert (feq t (fofZ 0) = false) as ->.
    { apply not_true_iff_false. intros E. apply feq_iff in E as [E _]. rewrite Ht in E.
      assert (fval (fofZ 0) = XFin 0) as E0 by apply fval_f0. rewrite E0 in E. injection E as E. contradiction. }
    apply fdiv_fin.
    - rewrite fabs_val, (fsub_fin Hm Ht), Hd. reflexivity.
    - rewrite fabs_val, Ht. reflexivity.
    - now apply Rabs_no_R0.
  Qed.

  (** the exact digest measured against itself: the error functions see the same number twice *)
  Theorem self_measure dataset q (err : F -> F -> F) n : usable dataset -> a_quantile q ->
    always (fun es => length es = n /\ Forall (fun e => exists x, exact_value dataset q x /\ e = err x x) es)
      (sample_digest_accuracy (@linear_digest F FO) (fun _ => dataset) (fun _ => demo_linear) (demo_test q) err n).
  Proof.
    intros Hd Hq. unfold sample_digest_accuracy.
    pose proof (linear_exact Hd Hq) as HL.
    assert (forall j, always (fun e => exists x, exact_value dataset q x /\ e = err x x)
      (sample_one (@linear_digest F FO) (fun _ => dataset) (fun _ => demo_linear) (demo_test q) err j)) as H1.
    { intros j. unfold sample_one, demo_linear, demo_test. cbn [bind linear_digest d_est_v].
      change (linear_add_buffer linear_new dataset) with dataset.
      destruct (linear_est_v dataset q) as [[l x]| | |f] eqn:E; cbn [bind always] in *; try contradiction.
      - exists x. split; [apply HL|reflexivity].
      - exfalso. revert E. unfold linear_est_v. clear. destruct (ftoZ _) as [z|]; cbn [unwrap bind]; [|discriminate].
        assert (forall l : list F, match (sort_by_key (fun x => x) l) with Flip _ => False | _ => True end) as HS.
        { intros [|x [|y l]]; cbn [sort_by_key]; auto. destruct (existsb _ _); exact I. }
        specialize (HS dataset). destruct (sort_by_key (fun x => x) dataset) as [v| | |]; cbn [bind]; try discriminate; try contradiction.
        destruct (z =? _)%Z; [destruct (last _ _); discriminate|]. destruct (z <? _)%Z; [|discriminate].
        unfold index. destruct (nth_error v _); cbn [unwrap bind]; discriminate. }
    generalize 0. induction n as [|n IH]; intros j; cbn [seq mapM always length]; [split; [reflexivity|constructor]|].
    eapply always_bind; [exact (H1 j)|]. intros e He. eapply always_bind; [exact (IH (S j))|]. intros es [Hl Hes].
    cbn [always length]. split; [lia|constructor; auto].
  Qed.
End Proofs.

(** the t-digest line in IEEE arithmetic; the scale functions are arbitrary *)
Theorem demo_t_f32 (cfg : tcfg f32) (Hlib : lib_ok cfg) chunk dataset qs : dataset <> [] -> Forall moderate32 dataset ->
  (Z.of_nat (length dataset) <= 2 ^ 23)%Z -> 1 <= chunk -> Forall a_quantile qs ->
  always (fun pts => Forall2 (point (fun _ _ => True)) qs pts) (demo_line (t_digest cfg) (demo_t cfg chunk) dataset qs).
Proof.
  intros Hne Hm Hl Hc Hq. apply demo_t_line; auto.
  - split; [exact Hne|]. split.
    + eapply Forall_impl; [|exact Hm]. intros x (r & Hr & _). apply fisnan_false. rewrite Hr. discriminate.
    + split; [|lia]. eapply Z.le_trans; [exact Hl|]. discriminate.
  - eapply always_mono.
    + apply (@td_total_f32 cfg Hlib).
      * apply Forall_map. eapply Forall_impl; [|exact (forall_chunks Hc Hm)]. intros l H. exact H.
      * rewrite items_bufs, chunks_list_concat by exact Hc. exact Hl.
    + cbn beta. intros r (_ & _ & H). exact H.
Qed.
Theorem demo_t_f64 (cfg : tcfg f64) (Hlib : lib_ok cfg) chunk dataset qs : dataset <> [] -> Forall moderate dataset ->
  (Z.of_nat (length dataset) <= 2 ^ 52)%Z -> 1 <= chunk -> Forall a_quantile qs ->
  always (fun pts => Forall2 (point (fun _ _ => True)) qs pts) (demo_line (t_digest cfg) (demo_t cfg chunk) dataset qs).
Proof.
  intros Hne Hm Hl Hc Hq. apply demo_t_line; auto.
  - split; [exact Hne|]. split.
    + eapply Forall_impl; [|exact Hm]. intros x (r & Hr & _). apply fisnan_false. rewrite Hr. discriminate.
    + split; [|lia]. eapply Z.le_trans; [exact Hl|]. discriminate.
  - eapply always_mono.
    + apply (@td_f64_total cfg Hlib).
      * apply Forall_map. eapply Forall_impl; [|exact (forall_chunks Hc Hm)]. intros l H. exact H.
      * rewrite items_bufs, chunks_list_concat by exact Hc. exact Hl.
    + cbn beta. intros r (_ & _ & H). exact H.
Qed.

(** nothing is lost in the chunks *)
Theorem demo_t_count32 (cfg : tcfg f32) (Hlib : lib_ok cfg) chunk dataset : Forall moderate32 dataset ->
  (Z.of_nat (length dataset) <= 2 ^ 23)%Z -> 1 <= chunk ->
  always (fun s => d_count (t_digest cfg) s = Ret (Z.of_nat (length dataset))) (demo_t cfg chunk dataset).
Proof.
  intros Hm Hl Hc. unfold demo_t, chunks. destruct chunk as [|c]; [lia|]. cbn [bind].
  apply (@fold_exec f32 (t_digest cfg)). eapply always_mono.
  - apply (@td_total_f32 cfg Hlib).
    + apply Forall_map. eapply Forall_impl; [|exact (forall_chunks Hc Hm)]. intros l H. exact H.
    + rewrite items_bufs, chunks_list_concat by exact Hc. exact Hl.
  - cbn beta. intros r (H & _). rewrite items_bufs, chunks_list_concat in H by exact Hc. exact H.
Qed.
Theorem demo_t_count64 (cfg : tcfg f64) (Hlib : lib_ok cfg) chunk dataset : Forall moderate dataset ->
  (Z.of_nat (length dataset) <= 2 ^ 52)%Z -> 1 <= chunk ->
  always (fun s => d_count (t_digest cfg) s = Ret (Z.of_nat (length dataset))) (demo_t cfg chunk dataset).
Proof.
  intros Hm Hl Hc. unfold demo_t, chunks. destruct chunk as [|c]; [lia|]. cbn [bind].
  apply (@fold_exec f64 (t_digest cfg)). eapply always_mono.
  - apply (@td_f64_total cfg Hlib).
    + apply Forall_map. eapply Forall_impl; [|exact (forall_chunks Hc Hm)]. intros l H. exact H.
    + rewrite items_bufs, chunks_list_concat by exact Hc. exact Hl.
  - cbn beta. intros r (H & _). rewrite items_bufs, chunks_list_concat in H by exact Hc. exact H.
Qed.

Section Count.
  Context {F : Type} {FO : FloatOps F} {FL : FloatLaws F}.
  Theorem demo_rc_count lg k (dataset : list F) : no_nan dataset -> rc_params lg (length dataset) k -> (N.of_nat (length dataset / k) <= u32_max)%N ->
    always (fun s => d_count rc_digest s = Ret (Z.of_nat (length dataset))) (demo_rc lg k dataset).
  Proof.
    intros Hn Hp Hu. unfold demo_rc. rewrite (rc_new_val Hp). cbn [bind]. set (n := length dataset) in *.
    pose proof Hp as (Hk & _).
    assert (reached n k (rc_fresh n k) []) as H0 by (exists []; repeat split; constructor).
    eapply always_mono; [exact (@reached_step F FO FL n k (rc_fresh n k) [] (RBuf dataset) Hk Hu H0 (Forall_nil _) eq_refl eq_refl Hn (le_n n))|].
    cbn [app ritems]. intros s Hs. destruct (reached_facts Hk Hu Hs Hn (le_n n)) as (B1 & _). cbn [d_count rc_digest]. now rewrite B1.
  Qed.
End Count.
