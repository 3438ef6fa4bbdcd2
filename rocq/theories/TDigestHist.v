(** The t-digest over whole histories in exact arithmetic; independence of the order of a buffer. *)
From Coq Require Import List Arith ZArith Lia Bool Permutation Sorted Reals Lra.
From Flocq Require Import Core.
From Verif Require Import Base Floats XReal Digest TDigest Spec FloatFacts History TDigestProofs TDigestProofs2 TDigestExact TDigestExactQ TDigestExactV.
Set Implicit Arguments.
Local Open Scope R_scope.

Section Hist.
  Variable cfg : tcfg xr.
  Hypothesis Hlib : lib_ok cfg.

  Definition xfinite (x : xr) : Prop := exists r, x = XFin r.
  Lemma finite_map l : Forall xfinite l -> exists rs, l = map XFin rs.
  Proof.
    induction 1 as [|x l [r ->] H [rs ->]]; [exists []; auto|]. exists (r :: rs). reflexivity.
  Qed.
  Lemma map_XFin_inj a b : map XFin a = map XFin b -> a = b.
  Proof. revert b; induction a as [|x a IH]; intros [|y b] H; try discriminate; auto. injection H as -> H. f_equal; auto. Qed.

  Definition tstate (s : tdigest xr) (its : list xr) : Prop := forall rs, its = map XFin rs -> texact s rs.

  Lemma tstate_add s its o : is_query o = false -> tstate s its -> Forall xfinite (its ++ items_of [o]) ->
    exists s', step (t_digest cfg) s o = Ret (s', []) /\ tstate s' (its ++ items_of [o]).
  Proof.
    intros Hq H Hf. apply Forall_app in Hf as [Hf1 Hf2]. destruct (finite_map Hf1) as (rs & ->). specialize (H rs eq_refl).
    destruct o as [x|l|v|q]; try discriminate; cbn [items_of step] in *.
    - inversion Hf2 as [|? ? [r ->] _]; subst. destruct (add_one_exact Hlib r H) as (s' & E & H').
      exists s'. cbn [d_add t_digest]. rewrite E. split; auto.
      intros rs' E'. change [XFin r] with (map XFin [r]) in E'. rewrite <- map_app in E'. apply map_XFin_inj in E'. now subst.
    - rewrite app_nil_r in *. destruct (finite_map Hf2) as (rl & ->). destruct (add_buffer_exact Hlib rl H) as (s' & E & H').
      exists s'. cbn [d_add_buffer t_digest]. rewrite E. split; auto.
      intros rs' E'. rewrite <- map_app in E'. apply map_XFin_inj in E'. now subst.
  Qed.

  Lemma td_exec_exact ops rs : items_of ops = map XFin rs -> whenever (fun r => texact (fst r) rs) (exec (t_digest cfg) td_new ops).
  Proof.
    intros E. apply whenever_mono with (P := fun r => tstate (fst r) (items_of ops)); [|intros [s a] H; now apply H].
    refine (@exec_whenever xr (t_digest cfg) tstate _ ops td_new [] _).
    - intros s its o H. destruct (is_query o) eqn:Eq.
      + assert (items_of [o] = []) as -> by (destruct o; auto; discriminate). rewrite app_nil_r.
        destruct o as [x|l|v|q]; try discriminate; cbn [step d_est_q d_est_v t_digest]; rewrite bind_assoc;
          (eapply whenever_bind; [apply whenever_true|]; intros a _; exact H).
      + assert (Forall xfinite (its ++ items_of [o]) \/ ~ Forall xfinite (its ++ items_of [o])) as [Hf|Hf].
        { generalize (its ++ items_of [o]). clear. intros l. induction l as [|x l [H|H]]; [left; constructor| |right; intros HH; inversion HH; auto].
          destruct x as [| |r]; [right|right|left; constructor; [exists r|]; auto]; intros HH; inversion HH as [|? ? [r Hr]]; discriminate. }
        * destruct (tstate_add o Eq H Hf) as (s' & E' & H'). refine (eq_ind_r (fun m => whenever _ m) _ E'). exact H'.
        * eapply whenever_mono; [apply whenever_true|]. intros [s' a] _ rs' E'. exfalso. apply Hf. rewrite E'.
          apply Forall_map, Forall_forall. intros r _. exists r. auto.
    - intros rs' E'. destruct rs'; [|discriminate]. left. auto.
  Qed.

  (** every call of an admissible history returns *)
  Definition xok (o : op xr) : Prop :=
    match o with
    | Add x => xfinite x
    | AddBuf l => Forall xfinite l
    | Quant v => v <> XNaN
    | Val q => exists r, q = XFin r /\ 0 <= r <= 1
    end.

  Lemma texact_means s rs : texact s rs -> Forall (fun c => fisnan (mean c) = false) (t_centroids s).
  Proof.
    intros [(_ & E & _)|(_ & cs & lo & hi & I)]; [rewrite E; constructor|]. rewrite (ti_cs I). apply Forall_map, Forall_forall. intros c _. apply xnn.
  Qed.

  Lemma est_q_returns s rs v : texact s rs -> v <> XNaN -> exists a, td_est_q s v = Ret a.
  Proof.
    intros H Hv. apply (@td_est_q_total xr xr_ops (xr_laws (Z.le_refl 4096))).
    - apply (@fisnan_false xr xr_ops (xr_laws (Z.le_refl 4096))). exact Hv.
    - now apply texact_means with rs.
  Qed.

  Lemma est_v_returns s rs q : texact s rs -> 0 <= q <= 1 -> (Z.of_nat (length rs) < 2 ^ 64)%Z -> exists a, td_est_v s (XFin q) = Ret a.
  Proof.
    intros [(-> & E1 & E2 & E3)|(Hne & cs & lo & hi & I)] Hq Hn.
    - unfold td_est_v, total_weight, sum_weights. rewrite E1. cbn [map fsum64 xr_ops fold_left]. rewrite xmul_fin, xf1.
      rewrite (proj2 (xlt_b (0 * q) 1)) by lra. eauto.
    - assert (Wt cs < IZR (2 ^ 64)) as HT. { rewrite (ti_wt I), INR_IZR_INZ. now apply IZR_lt. }
      assert (clear_of_last cs (Wt cs * q) \/ ~ clear_of_last cs (Wt cs * q)) as [Hc|Hc].
      { unfold clear_of_last. destruct (Req_EM_T (snd (lastc cs)) 1); [tauto|]. destruct (Rlt_dec (Wt cs * q) (Wt cs - snd (lastc cs) / 2)); [tauto|].
        destruct (Rlt_dec (Wt cs - 1) (Wt cs * q)); tauto. }
      + rewrite (est_v_value I); eauto.
      + destruct (est_v_last_branch I Hq Hc) as [-> _]. eauto.
  Qed.

  Theorem td_exec_returns ops rs : Forall xok ops -> items_of ops = map XFin rs -> (Z.of_nat (length rs) < 2 ^ 64)%Z ->
    always (fun r => texact (fst r) rs) (exec (t_digest cfg) td_new ops).
  Proof.
    intros Hok E Hn.
    assert (forall ops s pre, Forall xok ops -> texact s pre -> forall rs, items_of ops = map XFin rs -> (Z.of_nat (length (pre ++ rs)) < 2 ^ 64)%Z ->
      always (fun r => texact (fst r) (pre ++ rs)) (exec (t_digest cfg) s ops)) as HH.
    { clear ops rs Hok E Hn. intros ops. induction ops as [|o ops IH]; intros s pre Hok Hs rs E Hn.
      - destruct rs; [|discriminate]. rewrite app_nil_r. exact Hs.
      - inversion Hok as [|? ? Ho Hok']; subst. cbn [exec].
        assert (exists r1 r2, rs = r1 ++ r2 /\ items_of [o] = map XFin r1 /\ items_of ops = map XFin r2) as (r1 & r2 & -> & E1 & E2).
        { rewrite items_of_cons in E. symmetry in E. apply map_eq_app in E as (r1 & r2 & -> & A & B). exists r1, r2. auto. }
        assert (always (fun r => texact (fst r) (pre ++ r1)) (step (t_digest cfg) s o)) as HS.
        { destruct o as [x|l|v|q]; cbn [step items_of xok] in *.
          - destruct r1 as [|r [|? ?]]; try discriminate. injection E1 as ->. destruct (add_one_exact Hlib r Hs) as (s' & E' & H').
            cbn [d_add t_digest]. now rewrite E'.
          - rewrite app_nil_r in E1. subst l. destruct (add_buffer_exact Hlib r1 Hs) as (s' & E' & H').
            cbn [d_add_buffer t_digest]. now rewrite E'.
          - destruct r1; [|discriminate]. rewrite app_nil_r. cbn [d_est_q t_digest]. destruct (est_q_returns Hs Ho) as [a ->]. exact Hs.
          - destruct r1; [|discriminate]. rewrite app_nil_r. destruct Ho as (r & -> & Hr). cbn [d_est_v t_digest].
            destruct (@est_v_returns s pre r Hs Hr) as [a ->]; [|exact Hs]. rewrite app_length in Hn. lia. }
        eapply always_bind; [exact HS|]. intros [s' a] Hs'. cbn [fst] in Hs'. rewrite app_assoc in Hn.
        eapply always_bind; [apply (IH s' (pre ++ r1) Hok' Hs' r2 E2 Hn)|]. intros [s'' b] H''. cbn [always fst] in *. rewrite app_assoc. exact H''. }
    apply (HH ops td_new [] Hok) with (rs := rs); auto. left. auto.
  Qed.
End Hist.

(* ------------------------------------------------------------------ *)
(** ** The order of a buffer, and the unstable sort, do not matter *)
Section Order.
  Context {F : Type} {FO : FloatOps F} {FL : FloatLaws F}.

  (** equal numbers are identical (false only of the two zeros in IEEE arithmetic) *)
  Definition no_twins (l : list F) : Prop := forall x y, In x l -> In y l -> feq x y = true -> x = y.

  Lemma sorted_perm_unique (l l' : list F) : Permutation l l' -> no_twins l ->
    StronglySorted (fun a b => fle a b = true) l -> StronglySorted (fun a b => fle a b = true) l' -> l = l'.
  Proof.
    revert l'. induction l as [|x l IH]; intros l' HP HT H1 H2.
    - apply Permutation_nil in HP. now subst.
    - destruct l' as [|y l']; [apply Permutation_sym, Permutation_nil in HP; discriminate|].
      apply StronglySorted_inv in H1 as [H1 H1']. apply StronglySorted_inv in H2 as [H2 H2'].
      rewrite Forall_forall in H1', H2'.
      assert (x = y) as ->.
      { assert (In y (x :: l)) as Hy by (eapply Permutation_in; [symmetry; exact HP|now left]).
        assert (In x (y :: l')) as Hx by (eapply Permutation_in; [exact HP|now left]).
        destruct Hy as [->|Hy]; auto. destruct Hx as [->|Hx]; auto.
        apply HT; [now left|now right|]. apply feq_of_le; auto. }
      f_equal. apply IH; auto; [eapply Permutation_cons_inv; eauto|]. intros a b Ha Hb. apply HT; now right.
  Qed.

  Variables cfg cfg' : tcfg F.
  Hypothesis H1 : lib_ok cfg.
  Hypothesis H2 : lib_ok cfg'.
  Hypothesis Hs : tc_scale cfg = tc_scale cfg'.
  Hypothesis Hi : tc_inv cfg = tc_inv cfg'.
  Hypothesis Hc : tc_cf cfg = tc_cf cfg'.

  Lemma merge_all_ext l : merge_all cfg l = merge_all cfg' l.
  Proof.
    assert (forall n w, w_limit cfg n w = w_limit cfg' n w) as HL by (intros; unfold w_limit; now rewrite Hs, Hi, Hc).
    assert (forall rest n w0 lim mw ms, merge_go cfg n w0 lim mw ms rest = merge_go cfg' n w0 lim mw ms rest) as HG.
    { induction rest as [|c rest IH]; intros; cbn [merge_go]; auto. destruct (fle _ _); auto. now rewrite HL, IH. }
    destruct l; auto. cbn [merge_all]. now rewrite HG, HL.
  Qed.

  Lemma unit_list l : Permutation l (map unit_cen (map mean l)) -> l = map unit_cen (map mean l).
  Proof.
    intros H. assert (Forall (fun c => c = unit_cen (mean c)) l) as HF.
    { eapply Permutation_Forall; [symmetry; exact H|]. rewrite map_map. apply Forall_map, Forall_forall. intros c _. reflexivity. }
    clear H. induction HF as [|c l Hc' HF IH]; cbn [map]; auto. now rewrite <- Hc', <- IH.
  Qed.

  Theorem td_add_buffer_order (l l' : list F) : Permutation l l' -> no_nan l -> no_twins l ->
    exists r r', td_add_buffer cfg td_new l = Ret r /\ td_add_buffer cfg' td_new l' = Ret r' /\
      t_centroids r = t_centroids r' /\ t_min r = t_min r' /\ t_max r = t_max r'.
  Proof.
    intros HP Hn HT. destruct l as [|x0 l0] eqn:El.
    { apply Permutation_nil in HP. subst l'. exists td_new, td_new. repeat split. }
    rewrite <- El in *.
    assert (forall c : tcfg F, lib_ok c -> forall k, Permutation l k ->
       exists sorted first lst, Permutation sorted l /\ StronglySorted (fun a b => fle a b = true) sorted /\
         head (map unit_cen sorted) = Some first /\ last_error (map unit_cen sorted) = Some lst /\
         td_add_buffer c td_new k = Ret {| t_centroids := merge_all c (map unit_cen sorted);
           t_min := fmin fmaxval (mean first); t_max := fmax fminval (mean lst); t_tick := 1 |}) as HH.
    { intros c Hl k Hk. unfold td_add_buffer, add_centroid_buffer. cbn [t_centroids td_new]. rewrite app_nil_r.
      assert (Forall (fun c => fisnan (mean c) = false) (map unit_cen k)) as Hnk.
      { apply Forall_map. cbn [unit_cen mean]. eapply Permutation_Forall; [exact Hk|exact Hn]. }
      assert (exists sorted, sort_centroids c 0 (map unit_cen k) = Ret (map unit_cen sorted) /\ Permutation sorted k /\
        StronglySorted (fun a b => fle a b = true) sorted) as (sorted & E1 & E2 & E3).
      { destruct k as [|a [|b k]].
        - exists []. repeat split; auto. constructor.
        - exists [a]. repeat split; auto. repeat constructor.
        - pose proof (lo_perm Hl 0 (map unit_cen (a :: b :: k))) as P1.
          pose proof (lo_sorted Hl 0 Hnk) as P2.
          set (srt := tc_sort c 0 (map unit_cen (a :: b :: k))) in *.
          apply Permutation_map_inv in P1 as (srt' & Es & P1).
          exists srt'. split; [|split].
          + unfold sort_centroids. change (map unit_cen (a :: b :: k)) with (unit_cen a :: unit_cen b :: map unit_cen k).
            change (unit_cen a :: unit_cen b :: map unit_cen k) with (map unit_cen (a :: b :: k)).
            destruct (existsb _ _) eqn:E; [|fold srt; now rewrite Es]. exfalso. apply existsb_exists in E as (y & Hy & Hy').
            rewrite Forall_forall in Hnk. rewrite (Hnk y Hy) in Hy'. discriminate.
          + now symmetry.
          + rewrite Es in P2. clear -P2. induction srt' as [|a l IH]; constructor.
            * apply IH. intros i j x y Hij Hx Hy. apply (P2 (S i) (S j) x y); auto. lia.
            * apply Forall_forall. intros y Hy. apply In_nth_error in Hy as [k Hk].
              apply (P2 0%nat (S k) (unit_cen a) (unit_cen y)); [lia|reflexivity|]. cbn [map nth_error]. now apply map_nth_error. }
      assert (sorted <> []) as Hsn.
      { intros ->. apply Permutation_nil in E2. subst k. apply Permutation_sym, Permutation_nil in Hk. rewrite El in Hk. discriminate. }
      assert (exists first, head (map unit_cen sorted) = Some first) as [first Hf] by (destruct sorted; [congruence|eexists; reflexivity]).
      assert (exists lst, last_error (map unit_cen sorted) = Some lst) as [lst Hlst].
      { clear -Hsn. induction sorted as [|a l IH]; [congruence|]. destruct l as [|b l]; [eexists; reflexivity|].
        destruct IH as [x Hx]; [discriminate|]. exists x. exact Hx. }
      exists sorted, first, lst. split; [transitivity k; auto; now symmetry|]. split; auto. split; auto. split; auto.
      destruct (map unit_cen k) as [|b0 b1] eqn:Eb.
      { apply map_eq_nil in Eb. subst k. apply Permutation_sym, Permutation_nil in Hk. rewrite El in Hk. discriminate. }
      rewrite <- Eb in *. cbn [t_tick t_min t_max td_new]. rewrite E1. cbn [bind]. rewrite Hf, Hlst. cbn [unwrap bind]. reflexivity. }
    destruct (HH cfg H1 l (Permutation_refl l)) as (s1 & f1' & l1 & A1 & A2 & A3 & A4 & A5).
    destruct (HH cfg' H2 l' HP) as (s2 & f2' & l2 & B1 & B2 & B3 & B4 & B5).
    assert (s1 = s2) as ->.
    { apply sorted_perm_unique; auto; [transitivity l; auto; now symmetry|].
      intros x y Hx Hy. apply HT; (eapply Permutation_in; [exact A1|assumption]). }
    rewrite A5, B5. do 2 eexists. split; [reflexivity|]. split; [reflexivity|]. cbn [t_centroids t_min t_max].
    rewrite merge_all_ext. replace f2' with f1' by congruence. replace l2 with l1 by congruence. auto.
  Qed.
End Order.
