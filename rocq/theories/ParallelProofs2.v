(** ParallelDigest queries: range of the combined quantile, the bisection, independence of the schedule. *)
From Coq Require Import List Arith ZArith Lia Bool Permutation Sorted Reals Lra.
From Flocq Require Import Core.
From Verif Require Import Base Floats XReal IEEE Digest Spec FloatFacts History LinearProofs WrapProofs MultiSymProofs ChunkProofs ParallelProofs.
Set Implicit Arguments.
Unset Universe Minimization ToSet.

Section Range.
  Context {F : Type} {FO : FloatOps F} {FL : FloatLaws F}.

  Definition in_rng (v : F) (n : Z) : Prop := exists r, fval v = XFin r /\ (0 <= r <= IZR n)%R.
  Definition sumZ (l : list Z) : Z := fold_right Z.add 0%Z l.

  Lemma fadd_rng x y a b : (0 <= a)%Z -> (0 <= b)%Z -> (a + b <= fint)%Z -> in_rng x a -> in_rng y b -> in_rng (fadd x y) (a + b).
  Proof.
    intros Ha Hb Hs (r & Hr & Hr1) (r' & Hr' & Hr1').
    destruct (@frnd_range F FO FL 0 (IZR (a+b)) (r + r')) as (z & Hz & Hz1).
    { apply fexact_0. } { apply fint_exact. lia. } { rewrite plus_IZR. lra. }
    exists z. split; [|lra]. rewrite (fadd_fin Hr Hr'). exact Hz.
  Qed.

  Lemma sumZ_app a b : sumZ (a ++ b) = (sumZ a + sumZ b)%Z.
  Proof. induction a as [|x a IH]; cbn; auto. fold (sumZ (a ++ b)) (sumZ a). rewrite IH. lia. Qed.
  Lemma sumZ_nonneg l : Forall (fun n => (0 <= n)%Z) l -> (0 <= sumZ l)%Z.
  Proof. induction 1; cbn; try lia. fold (sumZ l). lia. Qed.

  Lemma fold_rng l ns acc a : Forall (fun n => (0 <= n)%Z) ns -> (0 <= a)%Z -> (a + sumZ ns <= fint)%Z ->
    Forall2 in_rng l ns -> in_rng acc a -> in_rng (fold_left fadd l acc) (a + sumZ ns).
  Proof.
    intros Hp Ha Hs H. revert acc a Ha Hs; induction H as [|x n l ns Hx H IH]; intros acc a Ha Hs Hacc; cbn.
    - now rewrite Z.add_0_r.
    - fold (sumZ ns) in *. inversion Hp; subst. cbn in Hs. fold (sumZ ns) in Hs.
      assert (0 <= sumZ ns)%Z by now apply sumZ_nonneg.
      rewrite Z.add_assoc. apply IH; auto; try lia. apply fadd_rng; auto; lia.
  Qed.

  Lemma Forall2_firstn {A B} (P : A -> B -> Prop) n l l' : Forall2 P l l' -> Forall2 P (firstn n l) (firstn n l').
  Proof. intros H; revert n; induction H; intros [|n]; cbn; constructor; auto. Qed.
  Lemma Forall2_skipn {A B} (P : A -> B -> Prop) n l l' : Forall2 P l l' -> Forall2 P (skipn n l) (skipn n l').
  Proof. intros H; revert n; induction H; intros [|n]; cbn; try constructor; auto. Qed.

  (** whatever the reduction tree *)
  Lemma reduce_rng t : forall l ns, Forall (fun n => (0 <= n)%Z) ns -> (sumZ ns <= fint)%Z ->
    Forall2 in_rng l ns -> in_rng (reduce f0 fadd t l) (sumZ ns).
  Proof.
    induction t as [|k tl IHl tr IHr]; intros l ns Hp Hs H; cbn [reduce].
    - apply (@fold_rng l ns f0 0); auto; try lia. exists 0%R. split; [apply fval_f0|lra].
    - assert (sumZ ns = sumZ (firstn k ns) + sumZ (skipn k ns))%Z as E by (rewrite <- sumZ_app, firstn_skipn; reflexivity).
      rewrite <- (firstn_skipn k ns) in Hp. apply Forall_app in Hp as [Hp1 Hp2].
      pose proof (sumZ_nonneg Hp1). pose proof (sumZ_nonneg Hp2).
      rewrite E. apply fadd_rng; auto; try lia.
      + apply IHl; auto; try lia. now apply Forall2_firstn.
      + apply IHr; auto; try lia. now apply Forall2_skipn.
  Qed.

  Variable D : digest F.
  Variable I : dst D -> nat -> Prop.
  Variable okv : F -> Prop.
  Hypothesis Hcount : forall s n, I s n -> d_count D s = Ret (Z.of_nat n).
  Hypothesis Hrange : forall s n v, okv v -> I s n -> 1 <= n ->
    always (fun r => I (fst r) n /\ exists e, fval (snd r) = XFin e /\ (0 <= e <= 1)%R) (d_est_q D s v).

  Lemma par_count' ds ns : Forall2 I ds ns ->
    (do l <- mapM (d_count D) ds; Ret (fold_left Z.add l 0%Z)) = Ret (Z.of_nat (sum_nat ns)).
  Proof.
    intros H. rewrite (@mapM_Ret _ _ (d_count D) ds (map Z.of_nat ns)).
    2:{ clear -H Hcount. induction H; cbn; constructor; auto. }
    cbn. f_equal. assert (forall a, fold_left Z.add (map Z.of_nat ns) a = (a + Z.of_nat (sum_nat ns))%Z) as E.
    { clear. induction ns as [|n ns IHn]; intros a; cbn [map fold_left sum_nat fold_right]; [lia|].
      rewrite IHn. fold (sum_nat ns). lia. }
    rewrite E. lia.
  Qed.
  Lemma sumZ_of_nat ns : sumZ (map Z.of_nat ns) = Z.of_nat (sum_nat ns).
  Proof. induction ns as [|n ns IH]; cbn [map sumZ sum_nat fold_right]; auto. fold (sumZ (map Z.of_nat ns)) (sum_nat ns). lia. Qed.

  Theorem parallel_est_q_range (s : parallel D) v ns : okv v ->
    Forall2 I (p_digests s) ns -> Forall (fun n => 1 <= n) ns -> ns <> [] -> (Z.of_nat (sum_nat ns) <= fint)%Z ->
    always (fun r => Forall2 I (p_digests (fst r)) ns /\ p_min (fst r) = p_min s /\ p_max (fst r) = p_max s /\
                     p_tick (fst r) = S (p_tick s) /\
                     exists e, fval (snd r) = XFin e /\ (0 <= e <= 1)%R)
      (parallel_est_q s v).
  Proof.
    intros Hv Hns Hpos Hne Hb. unfold parallel_est_q.
    apply always_bind with (P := fun rs => Forall2 I (map fst rs) ns /\ Forall2 in_rng (map snd rs) (map Z.of_nat ns)).
    - revert Hns. generalize (p_digests s) as ds. intros ds Hns. clear Hne. induction Hns as [|d n ds ns Hd H IH]; cbn [mapM].
      + split; constructor.
      + inversion Hpos as [|? ? Hn Hpos']; subst. cbn in Hb. fold (sum_nat ns) in Hb.
        rewrite bind_assoc. eapply always_bind; [apply (@Hrange d n v); auto|]. intros [d' e] (Hd' & r & Hr & Hr1). cbn [fst snd] in *.
        rewrite (Hcount Hd'). cbn [bind].
        eapply always_bind; [apply IH; auto; lia|]. intros rs [A B]. cbn. split; constructor; auto.
        assert (fval (fofZ (Z.of_nat n)) = XFin (IZR (Z.of_nat n))) as Hn' by (apply fval_int; lia).
        assert (0 <= IZR (Z.of_nat n))%R by (apply IZR_le; lia).
        destruct (@frnd_range F FO FL 0 (IZR (Z.of_nat n)) (r * IZR (Z.of_nat n))) as (z & Hz & Hz1).
        { apply fexact_0. } { apply fint_exact. lia. } { nra. }
        exists z. split; [|lra]. now rewrite (fmul_fin Hr Hn').
    - intros rs [A B]. cbv zeta. unfold parallel_count. cbn [p_digests].
      rewrite (par_count' A). cbn [bind always fst snd p_digests p_min p_max p_tick].
      split; [exact A|]. split; [reflexivity|]. split; [reflexivity|]. split; [reflexivity|].
      destruct (fun P1 P2 => @reduce_rng (p_sched s (p_tick s)) (map snd rs) (map Z.of_nat ns) P1 P2 B) as (r & Hr & Hr1).
      { apply Forall_forall. intros z Hz. apply in_map_iff in Hz as (? & <- & _). lia. }
      { now rewrite sumZ_of_nat. }
      rewrite sumZ_of_nat in Hr1.
      assert (1 <= sum_nat ns) as Hs1.
      { destruct ns as [|n ns]; [congruence|]. cbn. fold (sum_nat ns). inversion Hpos; subst. lia. }
      assert (1 <= IZR (Z.of_nat (sum_nat ns)))%R as Hs2 by (apply IZR_le; lia).
      assert (fval (fofZ (Z.of_nat (sum_nat ns))) = XFin (IZR (Z.of_nat (sum_nat ns)))) as Hn' by (apply fval_int; lia).
      destruct (@frnd_range F FO FL 0 1 (r / IZR (Z.of_nat (sum_nat ns)))) as (z & Hz & Hz1).
      { apply fexact_0. } { apply fexact_1. }
      { split; [apply Rmult_le_pos; [lra|]; apply Rlt_le, Rinv_0_lt_compat; lra|].
        apply Rmult_le_reg_r with (IZR (Z.of_nat (sum_nat ns))); [lra|]. unfold Rdiv. rewrite Rmult_assoc, Rinv_l; lra. }
      exists z. split; [|lra]. rewrite (fdiv_fin Hr Hn'); auto. lra.
  Qed.
End Range.

(* ------------------------------------------------------------------ *)
(** ** The bisection, in exact arithmetic *)
Section Bisect.
  Variable D : digest xr.
  Variable PI : parallel D -> Prop.
  Variables mn mx : R.
  Hypothesis Hmn : forall s, PI s -> p_min s = XFin mn /\ p_max s = XFin mx.
  Hypothesis Hle : (mn <= mx)%R.
  Variable G : R -> xr -> Prop.    (* G v e : e is a possible estimate at v *)
  Hypothesis Hq : forall s v, PI s -> (mn <= v <= mx)%R ->
    always (fun r => PI (fst r) /\ snd r <> XNaN /\ G v (snd r) /\ p_tick (fst r) = S (p_tick s)) (parallel_est_q s (XFin v)).
  Variable q : xr.
  Hypothesis Hqn : q <> XNaN.

  Lemma par_continue_iff a b : (mn <= a)%R -> (a <= b)%R -> (b <= mx)%R ->
    par_continue (XFin mn) (XFin mx) (XFin a) (XFin b) = true <-> (b - a > / 1000000 * (Rabs mn + Rabs mx))%R.
  Proof.
    intros H1 H2 H3. unfold par_continue. cbn [fsub fadd fabs fdiv frat fgt fcmp xr_ops xsub xneg xadd xabs xdiv].
    unfold fgt. cbn [fcmp xr_ops xdiv].
    assert (0 <= Rabs mn + Rabs mx)%R as HS by (pose proof (Rabs_pos mn); pose proof (Rabs_pos mx); lra).
    unfold rsign. destruct (Rcompare_spec (Rabs mn + Rabs mx) 0) as [Hc|Hc|Hc]; [lra| |].
    - assert (mn = 0 /\ mx = 0)%R as [-> ->].
      { pose proof (Rabs_pos mn); pose proof (Rabs_pos mx).
        assert (forall x, Rabs x = 0 -> x = 0)%R as R0 by (intros x Hx; destruct (Req_dec x 0) as [|Hx']; auto; apply Rabs_pos_lt in Hx'; lra).
        split; apply R0; lra. }
      assert (a = 0 /\ b = 0)%R as [-> ->] by lra.
      rewrite Ropp_0, Rplus_0_r, Rabs_R0. rewrite Rcompare_Eq by reflexivity. cbn. split; [discriminate|]. lra.
    - rewrite (Rabs_pos_eq (b + - a)) by lra. cbn [xcmp].
      destruct (Rcompare_spec ((b + - a) / (Rabs mn + Rabs mx)) (1 / 1000000)) as [Hd|Hd|Hd]; split; intros HH; try discriminate; auto.
      + exfalso. apply (Rmult_lt_compat_r (Rabs mn + Rabs mx)) in Hd; auto. unfold Rdiv in Hd. rewrite Rmult_assoc, Rinv_l in Hd; lra.
      + exfalso. assert ((b + - a) = 1 / 1000000 * (Rabs mn + Rabs mx))%R; [|lra]. rewrite <- Hd. field. lra.
      + apply (Rmult_lt_compat_r (Rabs mn + Rabs mx)) in Hd; auto. unfold Rdiv in Hd. rewrite Rmult_assoc, (Rmult_assoc (b + - a)), Rinv_l in Hd; lra.
  Qed.

  (** [low a]: the bracket's lower end is the minimum or was estimated at most q; [high b] dually *)
  Definition low (a : R) : Prop := a = mn \/ exists e, G a e /\ xle e q.
  Definition high (b : R) : Prop := b = mx \/ exists e, G b e /\ xlt q e.

  Lemma xcmp_cases (x y : xr) : x <> XNaN -> y <> XNaN ->
    (xcmp x y = Some Gt /\ xlt y x) \/ (exists c, xcmp x y = Some c /\ c <> Gt /\ xle x y).
  Proof.
    intros Hx Hy. pose proof (fgt_flt (FL := xr_laws (Z.le_refl 4096)) x y) as E.
    unfold fgt, flt in E. cbn [fcmp xr_ops] in E. unfold xlt, xle.
    destruct (xcmp x y) as [[]|] eqn:Ex.
    - right. exists Eq. repeat split; auto. discriminate.
    - right. exists Lt. repeat split; auto. discriminate.
    - left. split; auto. destruct (xcmp y x) as [[]|]; auto; discriminate.
    - exfalso. destruct x as [|[]|], y as [|[]|]; cbn in Ex; congruence.
  Qed.

  Lemma par_search_ok k fuel : forall (s : parallel D) a b m, PI s ->
    (mn <= a)%R -> (a <= m)%R -> (m <= b)%R -> (b <= mx)%R -> (b - a = (mx - mn) / 2 ^ k)%R -> 20 <= k + fuel -> low a -> high b ->
    always (fun r => let '(s', (a', b', m')) := r in PI s' /\ p_tick s' <= p_tick s + (20 - k) /\
        exists ra rb rm, a' = XFin ra /\ b' = XFin rb /\ m' = XFin rm /\
        (mn <= ra <= rm)%R /\ (rm <= rb <= mx)%R /\ (rb - ra <= / 1000000 * (Rabs mn + Rabs mx))%R /\ low ra /\ high rb)
      (par_search fuel s q (XFin a) (XFin b) (XFin m)).
  Proof.
    revert k. induction fuel as [|fuel IH]; intros k s a b m Hs H1 H2 H3 H4 Hw Hk Ha Hb;
      (destruct (par_continue (p_min s) (p_max s) (XFin a) (XFin b)) eqn:Ec;
       [|cbn [par_search]; rewrite Ec; cbn [always];
         (split; [exact Hs|]; split; [lia|]; exists a, b, m; do 3 (split; [reflexivity|]); split; [lra|]; split; [lra|]; split; [|auto];
         apply Rnot_gt_le; intros HH; apply par_continue_iff in HH; try lra; destruct (Hmn Hs) as [E1 E2]; rewrite E1, E2 in Ec; congruence)]).
    - exfalso. destruct (Hmn Hs) as [E1 E2]. rewrite E1, E2 in Ec. apply par_continue_iff in Ec; try lra.
      rewrite Hw in Ec.
      assert (2 ^ 20 <= 2 ^ k)%R as Hp by (apply Rle_pow; [lra|lia]).
      assert (mx - mn <= Rabs mn + Rabs mx)%R as HS.
      { pose proof (Rle_abs mx). pose proof (Rle_abs (- mn)). rewrite Rabs_Ropp in *. lra. }
      assert (2 ^ 20 = 1048576)%R as E20 by (cbn; lra). rewrite E20 in Hp.
      assert ((mx - mn) / 2 ^ k <= (mx - mn) / 1048576)%R.
      { unfold Rdiv. apply Rmult_le_compat_l; [lra|]. apply Rinv_le; lra. }
      lra.
    - cbn [par_search]. rewrite Ec.
      assert (k < 20) as Hk20.
      { destruct (le_lt_dec 20 k) as [Hk'|]; auto. exfalso. destruct (Hmn Hs) as [E1 E2]. rewrite E1, E2 in Ec. apply par_continue_iff in Ec; try lra.
        rewrite Hw in Ec.
        assert (2 ^ 20 <= 2 ^ k)%R as Hp by (apply Rle_pow; [lra|lia]).
        assert (mx - mn <= Rabs mn + Rabs mx)%R as HS.
        { pose proof (Rle_abs mx). pose proof (Rle_abs (- mn)). rewrite Rabs_Ropp in *. lra. }
        assert (2 ^ 20 = 1048576)%R as E20 by (cbn; lra). rewrite E20 in Hp.
        assert ((mx - mn) / 2 ^ k <= (mx - mn) / 1048576)%R.
        { unfold Rdiv. apply Rmult_le_compat_l; [lra|]. apply Rinv_le; lra. }
        lra. }
      assert (fdiv (fadd (XFin a) (XFin b)) f2 = XFin ((a + b) / 2)) as ->.
      { cbn. unfold rsign. rewrite Rcompare_Gt by lra. reflexivity. }
      set (c := ((a + b) / 2)%R). assert (a <= c <= b)%R as Hc by (unfold c; lra).
      assert (((mx - mn) / 2 ^ k) / 2 = (mx - mn) / 2 ^ (S k))%R as Hhalf.
      { cbn [pow]. field. apply pow_nonzero. lra. }
      cbv zeta. eapply always_bind; [apply Hq; auto; lra|]. intros [s1 e] (Hs1 & Hen & HG & Ht). cbn [fst snd] in *.
      unfold cmp_unwrap. cbn [fcmp xr_ops].
      destruct (xcmp_cases Hen Hqn) as [[-> Hgt]|(cc & -> & Hcc & Hle')]; cbn [unwrap bind].
      + eapply always_mono; [apply (IH (S k) s1 a c c); auto; try lra; try lia|].
        * unfold c. lra.
        * right. exists e. auto.
        * intros [s' [[a' b'] m']] (A & T & B). split; [exact A|]. split; [lia|exact B].
      + assert (always (fun r => let '(s', (a', b', m')) := r in PI s' /\ p_tick s' <= p_tick s + (20 - k) /\
        exists ra rb rm, a' = XFin ra /\ b' = XFin rb /\ m' = XFin rm /\
        (mn <= ra <= rm)%R /\ (rm <= rb <= mx)%R /\ (rb - ra <= / 1000000 * (Rabs mn + Rabs mx))%R /\ low ra /\ high rb)
          (par_search fuel s1 q (XFin c) (XFin b) (XFin c))) as HH.
        { eapply always_mono; [apply (IH (S k) s1 c b c); auto; try lra; try lia|].
          * unfold c. lra.
          * right. exists e. auto.
          * intros [s' [[a' b'] m']] (A & T & B). split; [exact A|]. split; [lia|exact B]. }
        destruct cc; [exact HH|exact HH|congruence].
  Qed.

  Theorem parallel_est_v_ok (s : parallel D) : PI s ->
    always (fun r => PI (fst r) /\ p_tick (fst r) <= p_tick s + 22 /\
        exists v a b, snd r = XFin v /\ (mn <= a <= v)%R /\ (v <= b <= mx)%R /\
          (b - a <= / 1000000 * (Rabs mn + Rabs mx))%R /\ low a /\ high b /\
          (v = b \/ exists e, G v e /\ xle q e))
      (parallel_est_v s q).
  Proof.
    intros Hs. unfold parallel_est_v. destruct (Hmn Hs) as [E1 E2]. rewrite E1, E2.
    assert (fdiv (fadd (XFin mn) (XFin mx)) f2 = XFin ((mn + mx) / 2)) as ->.
    { cbn. unfold rsign. rewrite Rcompare_Gt by lra. reflexivity. }
    eapply always_bind; [apply (@par_search_ok 0 par_fuel); auto; try lra|].
    - unfold par_fuel. lia.
    - now left.
    - now left.
    - intros [s1 [[a b] m]] (Hs1 & Ht & ra & rb & rm & -> & -> & -> & R1 & R2 & R3 & HL & HH).
      eapply always_bind; [apply (@Hq s1 ra); auto; lra|]. intros [s2 e] (Hs2 & Hen & HG & Ht2). cbn [fst snd] in *.
      assert (forall x y : xr, fge x y = true -> xle y x) as Hge.
      { intros x y HH'. rewrite (fge_fle (FL := xr_laws (Z.le_refl 4096))) in HH'. now apply (fle_iff (FL := xr_laws (Z.le_refl 4096))) in HH'. }
      destruct (fge e q) eqn:E.
      + cbn [always fst snd]. split; auto. split; [lia|]. exists ra, ra, rb. repeat split; auto; try lra. right. eauto.
      + eapply always_bind; [apply (@Hq s2 rm); auto; lra|]. intros [s3 e3] (Hs3 & Hen3 & HG3 & Ht3). cbn [fst snd] in *.
        destruct (fge e3 q) eqn:E3; cbn [always fst snd].
        * split; auto. split; [lia|]. exists rm, ra, rb. repeat split; auto; try lra. right. eauto.
        * split; auto. split; [lia|]. exists rb, ra, rb. repeat split; auto; try lra.
  Qed.
End Bisect.

(* ------------------------------------------------------------------ *)
(** ** Independence of the schedule, in exact arithmetic *)
Lemma xadd_assoc x y z : xadd (xadd x y) z = xadd x (xadd y z).
Proof. destruct x as [|[]|a], y as [|[]|b], z as [|[]|c]; cbn; auto. f_equal. ring. Qed.
Lemma xadd_0_l x : xadd (XFin 0) x = x.
Proof. destruct x as [|[]|a]; cbn; auto. f_equal. ring. Qed.
Lemma xadd_0_r x : xadd x (XFin 0) = x.
Proof. destruct x as [|[]|a]; cbn; auto. f_equal. ring. Qed.

Lemma fold_left_xadd l a : fold_left xadd l a = xadd a (fold_left xadd l (XFin 0)).
Proof.
  revert a; induction l as [|x l IH]; intros a; cbn [fold_left].
  - now rewrite xadd_0_r.
  - rewrite IH, (IH (xadd (XFin 0) x)), xadd_0_l. now rewrite xadd_assoc.
Qed.
Lemma reduce_xadd t l : reduce (XFin 0) xadd t l = fold_left xadd l (XFin 0).
Proof.
  revert l; induction t as [|n tl IHl tr IHr]; intros l; cbn [reduce]; auto.
  rewrite IHl, IHr, <- fold_left_xadd, <- fold_left_app, firstn_skipn. reflexivity.
Qed.

Definition with_sched {F} {FO : FloatOps F} {D : digest F} (s : parallel D) (f : nat -> rtree) : parallel D :=
  {| p_digests := p_digests s; p_min := p_min s; p_max := p_max s; p_sched := f; p_tick := p_tick s |}.

Theorem parallel_schedule_independent (D : digest xr) (s : parallel D) (v : xr) (f g : nat -> rtree) :
  bind (parallel_est_q (with_sched s f) v) (fun r => Ret (p_digests (fst r), snd r)) =
  bind (parallel_est_q (with_sched s g) v) (fun r => Ret (p_digests (fst r), snd r)).
Proof.
  unfold parallel_est_q, with_sched. cbn [p_digests p_min p_max p_sched p_tick]. rewrite !bind_assoc.
  apply bind_ext. intros rs. cbv zeta. unfold parallel_count. cbn [p_digests]. rewrite !bind_assoc.
  apply bind_ext. intros ns. cbn [bind fst snd p_digests].
  change (@f0 xr xr_ops) with (XFin 0). change (@fadd xr xr_ops) with xadd. rewrite !reduce_xadd. reflexivity.
Qed.

(* ------------------------------------------------------------------ *)
(** ** Reference members *)

Section LinearMembers.
  Context {F : Type} {FO : FloatOps F} {FL : FloatLaws F}.
  Notation LD := (linear_digest F).

  Lemma sum_nat_lengths (ds : list (list F)) : sum_nat (map (@length F) ds) = length (concat ds).
  Proof. induction ds as [|d ds IH]; cbn [map sum_nat fold_right concat]; auto. fold (sum_nat (map (@length F) ds)). rewrite app_length. lia. Qed.

  Theorem parallel_linear_est_q_range (s : parallel LD) (v : F) :
    Forall (fun d => d <> []) (p_digests s) -> p_digests s <> [] ->
    (2 * Z.of_nat (length (concat (p_digests s))) <= fint)%Z ->
    always (fun r => exists e, fval (snd r) = XFin e /\ (0 <= e <= 1)%R) (parallel_est_q s v).
  Proof.
    intros H1 H2 H3.
    assert (Forall2 (fun (d : list F) n => d <> [] /\ length d = n /\ (2 * Z.of_nat n <= fint)%Z) (p_digests s) (map (@length F) (p_digests s))) as HF.
    { clear H2. destruct s as [ds ? ? ? ?]. cbn [p_digests dst linear_digest] in *. induction H1 as [|d ds Hd H IH]; cbn [map]; constructor.
      - split; auto. split; auto. cbn [concat] in H3. rewrite app_length in H3. lia.
      - apply IH. cbn [concat] in H3. rewrite app_length in H3. lia. }
    eapply always_mono; [eapply (@parallel_est_q_range F FO FL LD (fun d n => d <> [] /\ length d = n /\ (2 * Z.of_nat n <= fint)%Z) (fun _ => True)) with (ns := map (@length F) (p_digests s)); auto|].
    - intros d n (_ & <- & _). reflexivity.
    - intros d n v' _ (A & B & C) Hn. cbn [d_est_q linear_digest always fst snd]. split; [auto|]. apply linear_est_q_range; auto. now rewrite B.
    - apply Forall_map. eapply Forall_impl; [|exact H1]. intros d Hd. destruct d; [congruence|cbn; lia].
    - destruct (p_digests s); cbn; congruence.
    - rewrite sum_nat_lengths. lia.
    - intros [s' e] (_ & _ & _ & _ & He). exact He.
  Qed.

  (** a buffer whose length is a (positive) multiple of the number of digests reaches every digest *)
  Theorem parallel_multiple_fills (s : parallel LD) (buf : list F) (m : nat) :
    1 <= m -> length buf = m * length (p_digests s) -> p_digests s <> [] -> no_nan buf -> (Z.of_nat (length buf) < 2 ^ 53)%Z ->
    always (fun s' : parallel LD => Forall (fun d => d <> []) (p_digests s') /\ length (p_digests s') = length (p_digests s)
                      /\ length (concat (p_digests s')) = length (concat (p_digests s)) + length buf)
      (d_add_buffer (parallel_digest LD) s buf).
  Proof.
    intros Hm Hl Hne Hn Hb.
    assert (1 <= length (p_digests s)) as Hd by (destruct (p_digests s); cbn; [congruence|lia]).
    assert (buf <> []) as Hbn by (intros HH; rewrite HH in Hl; cbn [length] in Hl; nia).
    apply always_mono with (P := fun s' : parallel LD => True /\ (exists cs, concat cs = buf /\ Forall (fun c => c <> []) cs /\ length cs <= length (p_digests s) /\
                   (forall m, length buf = m * length (p_digests s) -> length cs = length (p_digests s)) /\
                   delivered LD (p_digests s) cs (p_digests s')) /\
       (exists mn mx, is_min buf mn /\ is_max buf mx /\ p_min s' = fmin (p_min s) mn /\ p_max s' = fmax (p_max s) mx)).
    - apply always_whenever_and.
      + apply parallel_add_buffer_no_panic; auto. intros d c _. exact I.
      + apply parallel_add_buffer_ok; auto. nia.
    - intros s' (_ & (cs & C1 & C2 & C3 & C4 & C5) & _).
      assert (digests_count LD (fun s n => length s = n) (p_digests s) (map (@length F) (p_digests s))) as HD.
      { clear. destruct s as [ds ? ? ? ?]. cbn [p_digests dst linear_digest] in *. induction ds; cbn; constructor; auto. }
      assert (Forall (fun _ : F => True) (concat cs)) as HT by (apply Forall_forall; auto).
      destruct (delivered_counts_ge (@linear_counting F FO) C5 HT C2 (C4 m Hl) HD) as (ns & A & B).
      destruct (delivered_count (@linear_counting F FO) C5 HT HD) as (ns' & A' & B').
      assert (forall ds ns, digests_count LD (fun s n => length s = n) ds ns -> ns = map (@length F) ds) as Hu.
      { clear. intros ds ns H. cbn [dst linear_digest] in *. induction H; cbn; congruence. }
      pose proof (Hu _ _ A') as ->. clear Hu. rewrite !sum_nat_lengths, C1 in B'.
      split; [|split; [|exact B']].
      + clear -A B. destruct s' as [ds ? ? ? ?]. cbn [p_digests dst linear_digest] in *. induction A as [|d n ds ns Hd H IH]; constructor.
        * inversion B; subst. intros ->. cbn in *. lia.
        * inversion B; auto.
      + clear -C5. induction C5; cbn [length]; congruence.
  Qed.
End LinearMembers.

(** exact arithmetic: the answers of a ParallelDigest over reference members *)
Section LinearExact.
  Notation LD := (linear_digest xr).
  (** the combined estimate: members' mid-ranks added up, over the number of items *)
  Definition pooled_rank (ds : list (list xr)) (v : xr) : R := (sumR (map (fun d => mid_rank d v) ds) / INR (length (concat ds)))%R.

  Lemma linear_est_q_xr l v : l <> [] -> linear_est_q l v = XFin (mid_rank l v / INR (length l)).
  Proof.
    intros H. assert (4096 <= Z.max 4096 (2 * Z.of_nat (length l)))%Z as HB by lia.
    apply (@linear_est_q_exact xr xr_ops (xr_laws HB) l v); auto. cbn [fint xr_laws]. lia.
  Qed.

  Theorem parallel_linear_est_q_xr (s : parallel LD) (v : xr) :
    Forall (fun d => d <> []) (p_digests s) -> p_digests s <> [] ->
    parallel_est_q s v = Ret ({| p_digests := p_digests s; p_min := p_min s; p_max := p_max s; p_sched := p_sched s; p_tick := S (p_tick s) |},
                              XFin (pooled_rank (p_digests s) v)).
  Proof.
    intros H1 H2. unfold parallel_est_q.
    rewrite (@mapM_Ret _ _ _ (p_digests s) (map (fun d => (d, XFin (mid_rank d v))) (p_digests s))).
    2:{ destruct s as [ds ? ? ? ?]. cbn [p_digests dst linear_digest] in *. clear H2. induction H1 as [|d ds Hd H IH]; cbn [map]; constructor; auto.
        cbn [d_est_q d_count linear_digest bind]. rewrite linear_est_q_xr by auto. repeat f_equal.
        cbn [fmul fofZ xr_ops xmul]. f_equal. rewrite <- INR_IZR_INZ. field. apply not_0_INR. destruct d; cbn; [congruence|lia]. }
    cbn [bind]. rewrite !map_map. cbn [fst snd]. rewrite map_id.
    unfold parallel_count. cbn [p_digests].
    rewrite (@mapM_Ret (dst LD) Z (d_count LD) (p_digests s) (map (fun s : list xr => Z.of_nat (length s)) (p_digests s))).
    2:{ clear. destruct s as [ds ? ? ? ?]. cbn [p_digests dst linear_digest] in *. induction ds; cbn; constructor; auto. }
    cbn [bind]. do 2 f_equal.
    change (@f0 xr xr_ops) with (XFin 0). change (@fadd xr xr_ops) with xadd. rewrite reduce_xadd.
    destruct s as [ds ? ? ? ?]. cbn [p_digests dst linear_digest] in *.
    assert (forall a, fold_left xadd (map (fun d => XFin (mid_rank d v)) ds) (XFin a) = XFin (a + sumR (map (fun d => mid_rank d v) ds))) as E1.
    { clear. induction ds as [|d ds IH]; intros a; cbn [map fold_left sumR fold_right]; [f_equal; ring|].
      cbn [xadd]. rewrite IH. f_equal. unfold sumR. ring. }
    assert (forall a, fold_left Z.add (map (fun s : list xr => Z.of_nat (length s)) ds) a = (a + Z.of_nat (length (concat ds)))%Z) as E2.
    { clear. induction ds as [|d ds IH]; intros a; cbn [map fold_left concat length]; [lia|].
      rewrite IH, app_length. lia. }
    rewrite E1, E2, Rplus_0_l, Z.add_0_l. cbn [fofZ xr_ops fdiv xdiv].
    assert (0 < IZR (Z.of_nat (length (concat ds))))%R as Hp.
    { apply IZR_lt. destruct ds as [|d ds]; [congruence|]. inversion H1; subst. cbn. rewrite app_length. destruct d; [congruence|]. cbn [length]. lia. }
    unfold rsign. rewrite Rcompare_Gt by auto. f_equal. unfold pooled_rank. now rewrite INR_IZR_INZ.
  Qed.

  Theorem parallel_linear_est_v_xr (s : parallel LD) (q mn mx : R) :
    Forall (fun d => d <> []) (p_digests s) -> p_digests s <> [] -> p_min s = XFin mn -> p_max s = XFin mx -> (mn <= mx)%R ->
    always (fun r => exists v a b, snd r = XFin v /\ p_digests (fst r) = p_digests s /\ p_tick (fst r) <= p_tick s + 22 /\
          (mn <= a <= v)%R /\ (v <= b <= mx)%R /\ (b - a <= / 1000000 * (Rabs mn + Rabs mx))%R /\
          (a = mn \/ pooled_rank (p_digests s) (XFin a) <= q)%R /\ (b = mx \/ q < pooled_rank (p_digests s) (XFin b))%R /\
          (v = b \/ q <= pooled_rank (p_digests s) (XFin v))%R)
      (parallel_est_v s (XFin q)).
  Proof.
    intros H1 H2 H3 H4 Hle.
    eapply always_mono; [apply (@parallel_est_v_ok LD (fun s' => p_digests s' = p_digests s /\ p_min s' = XFin mn /\ p_max s' = XFin mx) mn mx)
      with (G := fun v e => e = XFin (pooled_rank (p_digests s) (XFin v)))|]; auto.
    - intros s' (_ & A & B). auto.
    - intros s' v (A & B & C) Hv. rewrite parallel_linear_est_q_xr; [|now rewrite A|now rewrite A].
      cbn [always fst snd p_digests p_min p_max p_tick]. rewrite A. repeat split; auto. discriminate.
    - discriminate.
    - intros [s' x] ((A & _ & _) & T & v & a & b & E & B1 & B2 & B3 & L & H & V). cbn [fst snd] in *.
      exists v, a, b. repeat split; auto; try lra.
      + destruct L as [L|(e & -> & L)]; auto. right. apply xle_iff in L. exact L.
      + destruct H as [H|(e & -> & H)]; auto. right. apply xlt_iff in H. exact H.
      + destruct V as [V|(e & -> & V)]; auto. right. apply xle_iff in V. exact V.
  Qed.
End LinearExact.

Theorem parallel_history_plain F (FO : FloatOps F) (FL : FloatLaws F) (D : digest F)
    (ok : F -> Prop) (I : dst D -> nat -> Prop) (sched : nat -> rtree) (ds : list (dst D)) (ops : list (op F)) :
  counting D ok I ->
  ds <> [] -> (Z.of_nat (length ds) < 2 ^ 53)%Z -> Forall (fun d => I d 0) ds ->
  Forall (fun o => match o with
                   | Add x => ok x /\ finite x
                   | AddBuf l => Forall ok l /\ Forall finite l /\ (Z.of_nat (length l) < 2 ^ 53)%Z
                   | _ => True end) ops ->
  whenever (fun r => d_count (parallel_digest D) (fst r) = Ret (Z.of_nat (length (items_of ops))) /\
                     (items_of ops <> [] -> has_min (items_of ops) (p_min (fst r)) /\ has_max (items_of ops) (p_max (fst r))))
    (exec (parallel_digest D) (parallel_new D sched ds) ops).
Proof.
  intros HC H1 H2 H3 H4. apply (@parallel_history F FO FL D ok I HC); auto.
Qed.
