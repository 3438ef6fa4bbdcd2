(** Proofs about ParallelDigest. *)
From Coq Require Import List Arith ZArith Lia Bool Permutation Sorted Reals Lra.
From Flocq Require Import Core.
From Verif Require Import Base Floats XReal Digest Spec FloatFacts History LinearProofs WrapProofs MultiSymProofs ChunkProofs.
Set Implicit Arguments.
Unset Universe Minimization ToSet.

Section ExecOps.
  Context {F : Type} (D : digest F) (Q : op F -> Prop).
  Lemma exec_whenever_ops (P : dst D -> list F -> Prop) :
    (forall s its o, Q o -> P s its -> whenever (fun r => P (fst r) (its ++ items_of [o])) (step D s o)) ->
    forall ops s its, Forall Q ops -> P s its -> whenever (fun r => P (fst r) (its ++ items_of ops)) (exec D s ops).
  Proof.
    intros Hstep. induction ops as [|o ops IH]; intros s its HQ HP.
    - cbn. now rewrite app_nil_r.
    - inversion HQ; subst. cbn [exec]. eapply whenever_bind; [apply Hstep; eassumption|].
      intros [s' a] H. eapply whenever_bind; [apply IH; [assumption|exact H]|].
      intros [s'' b] H'. cbn [fst whenever always] in *. rewrite items_of_cons, app_assoc. exact H'.
  Qed.
  Lemma exec_always_ops (P : dst D -> list F -> Prop) :
    (forall s its o, Q o -> P s its -> always (fun r => P (fst r) (its ++ items_of [o])) (step D s o)) ->
    forall ops s its, Forall Q ops -> P s its -> always (fun r => P (fst r) (its ++ items_of ops)) (exec D s ops).
  Proof.
    intros Hstep. induction ops as [|o ops IH]; intros s its HQ HP.
    - cbn. now rewrite app_nil_r.
    - inversion HQ; subst. cbn [exec]. eapply always_bind; [apply Hstep; eassumption|].
      intros [s' a] H. eapply always_bind; [apply IH; [assumption|exact H]|].
      intros [s'' b] H'. cbn [fst whenever always] in *. rewrite items_of_cons, app_assoc. exact H'.
  Qed.
End ExecOps.

Lemma mapM_Ret {A B} (f : A -> M B) l l' : Forall2 (fun a b => f a = Ret b) l l' -> mapM f l = Ret l'.
Proof. induction 1 as [|a b l l' Ha H IH]; cbn; auto. rewrite Ha. cbn. now rewrite IH. Qed.

Section Extremes.
  Context {F : Type} {FO : FloatOps F} {FL : FloatLaws F}.

  Lemma foldM_max (l : list F) a : no_nan (a :: l) ->
    always (fun m => is_max (a :: l) m)
      (foldM (fun m x => do c <- cmp_unwrap m x; Ret (match c with Gt => m | _ => x end)) a l).
  Proof.
    intros Hn.
    enough (forall l seen a, no_nan (seen ++ l) -> is_max seen a ->
      always (fun m => is_max (seen ++ l) m)
      (foldM (fun m x => do c <- cmp_unwrap m x; Ret (match c with Gt => m | _ => x end)) a l)) as H.
    { apply (H l [a] a Hn). inversion Hn; subst. split; [now left|]. intros x [<-|[]]. now apply fle_refl. }
    clear -FL. induction l as [|x l IH]; intros seen a Hn Ha.
    - cbn. now rewrite app_nil_r.
    - cbn [foldM]. eapply always_bind with (P := fun m => is_max (seen ++ [x]) m).
      + assert (fisnan a = false /\ fisnan x = false) as [Hna Hnx].
        { unfold no_nan in Hn. rewrite Forall_forall in Hn. destruct Ha as [Hin _]. split; apply Hn; apply in_app_iff; cbn; auto. }
        destruct Ha as [Hin Hle].
        apply always_bind with (P := fun c => match c with Gt => flt x a = true | _ => fle a x = true end).
        * apply cmp_unwrap_ok; auto. { apply flt_fle. }
          intros He. rewrite fle_or. now rewrite He, orb_true_r.
        * intros [| |] Hc; cbn; split.
          -- apply in_app_iff; cbn; auto.
          -- intros y Hy. apply in_app_iff in Hy as [Hy|[<-|[]]]; [eapply fle_trans; eauto|now apply fle_refl].
          -- apply in_app_iff; cbn; auto.
          -- intros y Hy. apply in_app_iff in Hy as [Hy|[<-|[]]]; [eapply fle_trans; eauto|now apply fle_refl].
          -- apply in_app_iff; cbn; auto.
          -- intros y Hy. apply in_app_iff in Hy as [Hy|[<-|[]]]; auto. now apply flt_fle.
      + intros m Hm. replace (seen ++ x :: l) with ((seen ++ [x]) ++ l) in * by (now rewrite <- app_assoc).
        now apply IH.
  Qed.

  Lemma foldM_min (l : list F) a : no_nan (a :: l) ->
    always (fun m => is_min (a :: l) m)
      (foldM (fun m x => do c <- cmp_unwrap m x; Ret (match c with Gt => x | _ => m end)) a l).
  Proof.
    intros Hn.
    enough (forall l seen a, no_nan (seen ++ l) -> is_min seen a ->
      always (fun m => is_min (seen ++ l) m)
      (foldM (fun m x => do c <- cmp_unwrap m x; Ret (match c with Gt => x | _ => m end)) a l)) as H.
    { apply (H l [a] a Hn). inversion Hn; subst. split; [now left|]. intros x [<-|[]]. now apply fle_refl. }
    clear -FL. induction l as [|x l IH]; intros seen a Hn Ha.
    - cbn. now rewrite app_nil_r.
    - cbn [foldM]. eapply always_bind with (P := fun m => is_min (seen ++ [x]) m).
      + assert (fisnan a = false /\ fisnan x = false) as [Hna Hnx].
        { unfold no_nan in Hn. rewrite Forall_forall in Hn. destruct Ha as [Hin _]. split; apply Hn; apply in_app_iff; cbn; auto. }
        destruct Ha as [Hin Hle].
        apply always_bind with (P := fun c => match c with Gt => flt x a = true | _ => fle a x = true end).
        * apply cmp_unwrap_ok; auto. { apply flt_fle. }
          intros He. rewrite fle_or. now rewrite He, orb_true_r.
        * intros [| |] Hc; cbn; split.
          -- apply in_app_iff; cbn; auto.
          -- intros y Hy. apply in_app_iff in Hy as [Hy|[<-|[]]]; auto.
          -- apply in_app_iff; cbn; auto.
          -- intros y Hy. apply in_app_iff in Hy as [Hy|[<-|[]]]; auto.
          -- apply in_app_iff; cbn; auto.
          -- intros y Hy. apply in_app_iff in Hy as [Hy|[<-|[]]]; [|now apply fle_refl].
             apply flt_fle. eapply flt_fle_trans; eauto.
      + intros m Hm. replace (seen ++ x :: l) with ((seen ++ [x]) ++ l) in * by (now rewrite <- app_assoc).
        now apply IH.
  Qed.

  Lemma max_by_ok l : l <> [] -> no_nan l -> always (fun o => exists m, o = Some m /\ is_max l m) (max_by_key (fun x => x) l).
  Proof.
    intros Hne Hn. destruct l as [|a l]; [congruence|]. cbn [max_by_key]. unfold liftM.
    eapply always_bind; [apply foldM_max; exact Hn|]. intros m Hm. cbn. eauto.
  Qed.
  Lemma min_by_ok l : l <> [] -> no_nan l -> always (fun o => exists m, o = Some m /\ is_min l m) (min_by_key (fun x => x) l).
  Proof.
    intros Hne Hn. destruct l as [|a l]; [congruence|]. cbn [min_by_key]. unfold liftM.
    eapply always_bind; [apply foldM_min; exact Hn|]. intros m Hm. cbn. eauto.
  Qed.

  Lemma feq_refl x : fisnan x = false -> feq x x = true.
  Proof. intros H. apply feq_iff. split; auto. now apply fisnan_false. Qed.
  Lemma finite_nn x : finite x -> fisnan x = false.
  Proof. intros [r H]. apply fisnan_false. congruence. Qed.
  Lemma finite_no_nan l : Forall finite l -> no_nan l.
  Proof. intros H. eapply Forall_impl; [|exact H]. apply finite_nn. Qed.

  (** updating the running extremes *)
  Definition min_inv (its : list F) (m : F) := (its = [] -> m = fmaxval) /\ (its <> [] -> has_min its m).
  Definition max_inv (its : list F) (m : F) := (its = [] -> m = fminval) /\ (its <> [] -> has_max its m).

  Lemma fmaxval_fle x : finite x -> fle x fmaxval = true.
  Proof. intros [r H]. apply fle_iff. rewrite H. eapply fmaxval_ge; eauto. Qed.
  Lemma fminval_fle x : finite x -> fle fminval x = true.
  Proof. intros [r H]. apply fle_iff. rewrite H. eapply fminval_le; eauto. Qed.

  Lemma feq_sym x y : feq x y = feq y x.
  Proof.
    destruct (feq x y) eqn:E, (feq y x) eqn:E'; auto.
    - apply feq_iff in E as [A B]. assert (feq y x = true); [|congruence]. apply feq_iff. split; congruence.
    - apply feq_iff in E' as [A B]. assert (feq x y = true); [|congruence]. apply feq_iff. split; congruence.
  Qed.
  Lemma feq_fle x y : feq x y = true -> fle x y = true.
  Proof. intros H. rewrite fle_or, H. apply orb_true_r. Qed.
  Lemma feq_trans x y z : feq x y = true -> feq y z = true -> feq x z = true.
  Proof. intros A B. apply feq_iff in A as [A A']. apply feq_iff in B as [B B']. apply feq_iff. split; congruence. Qed.

  Lemma min_inv_update its buf m bm : Forall finite its -> Forall finite buf -> buf <> [] -> min_inv its m -> is_min buf bm ->
    min_inv (its ++ buf) (fmin m bm).
  Proof.
    intros Fi Fb Hb [H0 H1] [Hin Hle]. rewrite Forall_forall in Fi, Fb.
    split; [intros E; apply app_eq_nil in E; tauto|]. intros _.
    assert (fisnan bm = false) as Hbm by (apply finite_nn, Fb, Hin).
    destruct its as [|i its].
    - rewrite H0 by auto. cbn [app].
      assert (fisnan (fmaxval : F) = false) as Hmx.
      { eapply fle_nn_r. apply (fmaxval_fle (Fb _ Hin)). }
      split.
      + exists bm. split; auto. unfold fmin. rewrite Hmx, Hbm. destruct (flt bm fmaxval) eqn:E; [now apply feq_refl|].
        pose proof (fmaxval_fle (Fb _ Hin)) as Hl. rewrite fle_or, E in Hl. exact Hl.
      + intros x Hx. eapply fle_trans; [apply fmin_le_r; exact Hbm|]. auto.
    - destruct H1 as [[y [Hy Ey]] Hm]; [discriminate|].
      assert (fisnan m = false) as Hmn by (apply feq_fle in Ey; eapply fle_nn_r; eauto).
      split.
      + destruct (fmin_cases m bm) as [->| ->].
        * exists y. split; auto. apply in_app_iff; auto.
        * exists bm. split; [apply in_app_iff; auto|now apply feq_refl].
      + intros x Hx. apply in_app_iff in Hx as [Hx|Hx].
        * eapply fle_trans; [apply fmin_le_l; exact Hmn|]. auto.
        * eapply fle_trans; [apply fmin_le_r; exact Hbm|]. auto.
  Qed.

  Lemma max_inv_update its buf m bm : Forall finite its -> Forall finite buf -> buf <> [] -> max_inv its m -> is_max buf bm ->
    max_inv (its ++ buf) (fmax m bm).
  Proof.
    intros Fi Fb Hb [H0 H1] [Hin Hle]. rewrite Forall_forall in Fi, Fb.
    split; [intros E; apply app_eq_nil in E; tauto|]. intros _.
    assert (fisnan bm = false) as Hbm by (apply finite_nn, Fb, Hin).
    destruct its as [|i its].
    - rewrite H0 by auto. cbn [app].
      assert (fisnan (fminval : F) = false) as Hmx.
      { eapply fle_nn_l. apply (fminval_fle (Fb _ Hin)). }
      split.
      + exists bm. split; auto. unfold fmax. rewrite Hmx, Hbm. destruct (flt fminval bm) eqn:E; [now apply feq_refl|].
        pose proof (fminval_fle (Fb _ Hin)) as Hl. rewrite fle_or, E in Hl. cbn in Hl. now rewrite feq_sym.
      + intros x Hx. eapply fle_trans; [|apply fmax_ge_r; exact Hbm]. auto.
    - destruct H1 as [[y [Hy Ey]] Hm]; [discriminate|].
      assert (fisnan m = false) as Hmn by (apply feq_fle in Ey; eapply fle_nn_r; eauto).
      split.
      + destruct (fmax_cases m bm) as [->| ->].
        * exists y. split; auto. apply in_app_iff; auto.
        * exists bm. split; [apply in_app_iff; auto|now apply feq_refl].
      + intros x Hx. apply in_app_iff in Hx as [Hx|Hx].
        * eapply fle_trans; [|apply fmax_ge_l; exact Hmn]. auto.
        * eapply fle_trans; [|apply fmax_ge_r; exact Hbm]. auto.
  Qed.
End Extremes.

Section Par.
  Context {F : Type} {FO : FloatOps F} {FL : FloatLaws F}.
  Variable D : digest F.
  Notation PD := (parallel_digest D).

  Lemma zip_add_delivers cs : forall ds, length cs <= length ds ->
    whenever (fun ds' => delivered D ds cs ds') (zip_add D ds cs).
  Proof.
    induction cs as [|c cs IH]; intros [|d ds] Hl; cbn in *; try constructor; try lia.
    eapply whenever_bind; [apply whenever_returns; intros d' Hd; exact Hd|]. intros d' Hd.
    eapply whenever_bind; [apply IH; lia|]. intros r Hr. cbn. now constructor.
  Qed.
  Lemma zip_add_always cs : forall ds,
    (forall d c, In d ds -> In c cs -> always (fun _ => True) (d_add_buffer D d c)) ->
    always (fun _ => True) (zip_add D ds cs).
  Proof.
    induction cs as [|c cs IH]; intros [|d ds] H; cbn in *; auto.
    eapply always_bind; [apply H; auto|]. intros d' _.
    eapply always_bind; [apply IH; auto|]. intros r _. exact Logic.I.
  Qed.
  Lemma delivered_length ds cs ds' : delivered D ds cs ds' -> length ds = length ds'.
  Proof. induction 1; cbn; auto. Qed.

  (** the chunks of one call *)
  Lemma par_chunks_ok (buf : list F) d : buf <> [] -> 1 <= d -> (Z.of_nat (length buf) < 2 ^ 53)%Z -> (Z.of_nat d < 2 ^ 53)%Z ->
    exists cs, chunks (par_chunk_size (length buf) d) buf = Ret cs /\ concat cs = buf /\
      Forall (fun c => c <> []) cs /\ length cs <= d /\ (forall m, length buf = m * d -> length cs = d).
  Proof.
    intros Hb Hd H1 H2. assert (1 <= length buf) as Hl by (destruct buf; cbn; [congruence|lia]).
    rewrite par_chunk_size_spec by auto.
    assert (1 <= (length buf + (d - 1)) / d) as Hc by (apply Nat.div_le_lower_bound; lia).
    remember ((length buf + (d - 1)) / d) as c eqn:Ec.
    exists (chunks_list c buf). split; [|split; [|split; [|split]]].
    - unfold chunks. destruct c; [lia|reflexivity].
    - now apply chunks_list_concat.
    - eapply Forall_impl; [|apply (chunks_list_bounds buf Hc)]. intros a Ha ->. cbn in Ha. lia.
    - rewrite chunks_list_count by auto. rewrite Ec. now apply chunk_count_le.
    - intros m Hm. rewrite chunks_list_count by auto. rewrite Ec, Hm. apply chunk_count_div; nia.
  Qed.

  Theorem parallel_add_buffer_ok (s : parallel D) (buf : list F) :
    buf <> [] -> no_nan buf -> p_digests s <> [] ->
    (Z.of_nat (length buf) < 2 ^ 53)%Z -> (Z.of_nat (length (p_digests s)) < 2 ^ 53)%Z ->
    whenever (fun s' =>
       (exists cs, concat cs = buf /\ Forall (fun c => c <> []) cs /\ length cs <= length (p_digests s) /\
                   (forall m, length buf = m * length (p_digests s) -> length cs = length (p_digests s)) /\
                   delivered D (p_digests s) cs (p_digests s')) /\
       (exists mn mx, is_min buf mn /\ is_max buf mx /\ p_min s' = fmin (p_min s) mn /\ p_max s' = fmax (p_max s) mx))
      (d_add_buffer PD s buf).
  Proof.
    intros Hb Hn Hd H1 H2. cbn [d_add_buffer parallel_digest]. unfold parallel_add_buffer.
    destruct (@par_chunks_ok buf (length (p_digests s))) as (cs & -> & C1 & C2 & C3 & C4); auto.
    { destruct (p_digests s); cbn; [congruence|lia]. }
    cbn [bind]. eapply whenever_bind; [apply zip_add_delivers; exact C3|]. intros ds Hds.
    eapply whenever_bind; [apply always_whenever; apply max_by_ok; auto|]. intros ? (mx & -> & Hmx). cbn [unwrap bind].
    eapply whenever_bind; [apply always_whenever; apply min_by_ok; auto|]. intros ? (mn & -> & Hmn). cbn [unwrap bind whenever].
    cbn [p_digests p_min p_max]. split; [exists cs; auto|]. exists mn, mx. auto.
  Qed.

  Theorem parallel_add_buffer_no_panic (s : parallel D) (buf : list F) :
    buf <> [] -> no_nan buf ->
    (forall d c, In d (p_digests s) -> always (fun _ => True) (d_add_buffer D d c)) ->
    always (fun _ => True) (d_add_buffer PD s buf).
  Proof.
    intros Hb Hn Hi. cbn [d_add_buffer parallel_digest]. unfold parallel_add_buffer.
    assert (exists cs, chunks (par_chunk_size (length buf) (length (p_digests s))) buf = Ret cs) as [cs ->].
    { assert (1 <= par_chunk_size (length buf) (length (p_digests s))) as Hp.
      { unfold par_chunk_size. assert (1 <= length buf) by (destruct buf; cbn; [congruence|lia]). lia. }
      unfold chunks. destruct (par_chunk_size _ _); [lia|eauto]. }
    cbn [bind]. eapply always_bind; [apply zip_add_always; auto|]. intros ds _.
    eapply always_bind; [apply max_by_ok; auto|]. intros ? (mx & -> & Hmx). cbn [unwrap bind].
    eapply always_bind; [apply min_by_ok; auto|]. intros ? (mn & -> & Hmn). exact Logic.I.
  Qed.

  Theorem parallel_add_empty_panics (s : parallel D) : must_panic (d_add_buffer PD s []).
  Proof.
    cbn [d_add_buffer parallel_digest]. unfold parallel_add_buffer.
    unfold chunks. destruct (par_chunk_size _ _); [exact Logic.I|]. cbn [chunks_list chunks_fuel length bind].
    destruct (p_digests s); exact Logic.I.
  Qed.

  Theorem parallel_zero_digests_drop (s : parallel D) (x : F) : p_digests s = [] ->
    exists s', d_add PD s x = Ret s' /\ p_digests s' = [] /\ d_count PD s' = Ret 0%Z.
  Proof.
    intros E. cbn [d_add d_count parallel_digest]. unfold parallel_add, parallel_add_buffer. rewrite E. cbn [length].
    unfold chunks.
    assert (1 <= par_chunk_size 1 0) as Hp by (unfold par_chunk_size; lia).
    destruct (par_chunk_size 1 0) as [|c]; [lia|]. cbn [bind]. cbn [zip_add]. destruct (chunks_list (S c) [x]); cbn [bind max_by_key min_by_key liftM foldM unwrap];
      (eexists; split; [reflexivity|]; split; [reflexivity|]; reflexivity).
  Qed.

  (** *** counting and extremes over histories *)
  Variables (ok : F -> Prop) (I : dst D -> nat -> Prop).
  Hypothesis HC : counting D ok I.

  Definition digests_count (ds : list (dst D)) (ns : list nat) : Prop := Forall2 I ds ns.
  Definition sum_nat (l : list nat) : nat := fold_right Nat.add 0 l.

  Lemma delivered_count ds cs ds' ns : delivered D ds cs ds' -> Forall ok (concat cs) -> digests_count ds ns ->
    exists ns', digests_count ds' ns' /\ sum_nat ns' = sum_nat ns + length (concat cs).
  Proof.
    intros H. revert ns. induction H as [ds|d c d' ds cs ds' Hr H IH]; intros ns Hok Hns.
    - exists ns. cbn. split; auto; lia.
    - cbn in Hok. apply Forall_app in Hok as [Hc Hok]. inversion Hns as [|? n ? ns0 Hn Hns']; subst.
      destruct (IH ns0 Hok Hns') as (ns1 & A & B).
      pose proof (ct_add_buffer HC _ _ Hn Hc) as W. rewrite whenever_returns in W. apply W in Hr.
      exists ((n + length c) :: ns1). split; [constructor; auto|]. cbn. fold (sum_nat ns0). fold (sum_nat ns1).
      rewrite app_length. lia.
  Qed.

  (** chunk by chunk *)
  Lemma delivered_counts_ge ds cs ds' ns : delivered D ds cs ds' -> Forall ok (concat cs) -> Forall (fun c => c <> []) cs ->
    length cs = length ds -> digests_count ds ns -> exists ns', digests_count ds' ns' /\ Forall (fun n => 1 <= n) ns'.
  Proof.
    intros H. revert ns. induction H as [ds|d c d' ds cs ds' Hr H IH]; intros ns Hok Hne Hl Hns.
    - destruct ds; [|discriminate]. inversion Hns; subst. exists []. split; constructor.
    - cbn in Hok. apply Forall_app in Hok as [Hc Hok]. inversion Hns as [|? n ? ns0 Hn Hns']; subst.
      inversion Hne; subst. cbn in Hl.
      destruct (IH ns0 Hok) as (ns1 & A & B); auto.
      pose proof (ct_add_buffer HC _ _ Hn Hc) as W. rewrite whenever_returns in W. apply W in Hr.
      exists ((n + length c) :: ns1). split; [constructor; auto|]. constructor; auto.
      destruct c; [congruence|]. cbn. lia.
  Qed.

  Lemma par_count ds ns : digests_count ds ns ->
    (do l <- mapM (d_count D) ds; Ret (fold_left Z.add l 0%Z)) = Ret (Z.of_nat (sum_nat ns)).
  Proof.
    intros H. assert (mapM (d_count D) ds = Ret (map Z.of_nat ns)) as ->.
    { apply mapM_Ret. clear -H HC. induction H; cbn; constructor; auto. now apply (ct_count HC). }
    cbn. f_equal. assert (forall a, fold_left Z.add (map Z.of_nat ns) a = (a + Z.of_nat (sum_nat ns))%Z) as E.
    { induction ns as [|n ns IHn]; intros a; cbn [map fold_left sum_nat fold_right]; [lia|].
      inversion H; subst. fold (sum_nat ns). clear IHn.
      revert a. clear. induction ns as [|m ns IH]; intros a; cbn [map fold_left sum_nat fold_right]; [lia|].
      replace (a + Z.of_nat n + Z.of_nat m)%Z with ((a + Z.of_nat m) + Z.of_nat n)%Z by lia. rewrite IH. fold (sum_nat ns). lia. }
    rewrite E. lia.
  Qed.

  Lemma par_est_q_state (s : parallel D) v ns : digests_count (p_digests s) ns ->
    whenever (fun r => digests_count (p_digests (fst r)) ns /\ p_min (fst r) = p_min s /\ p_max (fst r) = p_max s)
      (parallel_est_q s v).
  Proof.
    intros Hns. unfold parallel_est_q.
    apply whenever_bind with (P := fun rs => digests_count (map fst rs) ns).
    - revert Hns. generalize (p_digests s) as ds. intros ds Hns. induction Hns as [|d n ds ns Hd H IH]; cbn [mapM].
      + constructor.
      + rewrite bind_assoc. eapply whenever_bind; [apply (ct_est_q HC); exact Hd|]. intros [d' e] Hd'. cbn [fst] in Hd'.
        assert (d_count D d' = Ret (Z.of_nat n)) as Hct by exact (ct_count HC _ _ Hd'). rewrite Hct. cbn [bind].
        eapply whenever_bind; [exact IH|]. intros rs Hrs. cbn. constructor; auto.
    - intros rs Hrs. cbv zeta. unfold parallel_count. cbn [p_digests].
      rewrite (par_count Hrs). cbn. auto.
  Qed.

  Lemma par_search_state fuel : forall (s : parallel D) q a b c ns, digests_count (p_digests s) ns ->
    whenever (fun r => digests_count (p_digests (fst r)) ns /\ p_min (fst r) = p_min s /\ p_max (fst r) = p_max s)
      (par_search fuel s q a b c).
  Proof.
    induction fuel as [|fuel IH]; intros s q a b c ns Hns; cbn [par_search]; destruct (par_continue _ _ _ _); cbn; auto.
    eapply whenever_bind; [apply par_est_q_state; exact Hns|]. intros [s1 e] (A & B & C). cbn [fst] in *.
    eapply whenever_bind; [apply whenever_true|]. intros cmp _.
    assert (forall a b c, whenever (fun r => digests_count (p_digests (fst r)) ns /\ p_min (fst r) = p_min s /\ p_max (fst r) = p_max s)
      (par_search fuel s1 q a b c)) as H.
    { intros. rewrite <- B, <- C. now apply IH. }
    destruct cmp; apply H.
  Qed.

  Lemma par_est_v_state (s : parallel D) q ns : digests_count (p_digests s) ns ->
    whenever (fun r => digests_count (p_digests (fst r)) ns /\ p_min (fst r) = p_min s /\ p_max (fst r) = p_max s)
      (parallel_est_v s q).
  Proof.
    intros Hns. unfold parallel_est_v.
    eapply whenever_bind; [apply par_search_state; exact Hns|]. intros [s1 [[a b] c]] (A & B & C). cbn [fst] in *.
    eapply whenever_bind; [apply par_est_q_state; exact A|]. intros [s2 e] (A2 & B2 & C2). cbn [fst] in *.
    rewrite B in B2. rewrite C in C2.
    destruct (fge e q); [cbn; auto|].
    eapply whenever_bind; [apply par_est_q_state; exact A2|]. intros [s3 e3] (A3 & B3 & C3). cbn [fst] in *.
    rewrite B2 in B3. rewrite C2 in C3. destruct (fge e3 q); cbn; auto.
  Qed.

  Definition par_inv (d : nat) (s : parallel D) (its : list F) : Prop :=
    length (p_digests s) = d /\ (exists ns, digests_count (p_digests s) ns /\ sum_nat ns = length its) /\
    Forall finite its /\ min_inv its (p_min s) /\ max_inv its (p_max s).

  Definition par_ok_op (o : op F) : Prop :=
    match o with
    | Add x => ok x /\ finite x
    | AddBuf l => Forall ok l /\ Forall finite l /\ (Z.of_nat (length l) < 2 ^ 53)%Z
    | _ => True
    end.

  Lemma par_step_buf d s its l : 1 <= d -> (Z.of_nat d < 2 ^ 53)%Z -> par_inv d s its ->
    Forall ok l -> Forall finite l -> (Z.of_nat (length l) < 2 ^ 53)%Z ->
    whenever (fun s' => par_inv d s' (its ++ l)) (parallel_add_buffer s l).
  Proof.
    intros Hd Hd2 (H1 & (ns & H2 & H3) & H4 & H5 & H6) Hok Hf Hl.
    destruct l as [|x l].
    - apply whenever_returns. intros s' Hr. exfalso. pose proof (parallel_add_empty_panics s) as Hp.
      cbn [d_add_buffer parallel_digest] in Hp. revert Hr Hp. generalize (parallel_add_buffer s []) as m.
      induction m as [a| | |k IH]; cbn; try tauto. intros [b Hb] Hp. eapply IH; eauto.
    - remember (x :: l) as buf. assert (buf <> []) as Hne by (subst; discriminate). clear Heqbuf.
      eapply whenever_mono; [apply parallel_add_buffer_ok; auto|].
      + now apply finite_no_nan.
      + intros E. rewrite E in H1. cbn in H1. lia.
      + now rewrite H1.
      + intros s' [(cs & C1 & C2 & C3 & C4 & C5) (mn & mx & M1 & M2 & M3 & M4)].
        split; [|split; [|split; [|split]]].
        * rewrite <- H1. symmetry. eapply delivered_length; eauto.
        * rewrite <- C1 in Hok. destruct (delivered_count C5 Hok H2) as (ns' & A & B).
          exists ns'. split; auto. rewrite B, C1, H3, app_length. reflexivity.
        * apply Forall_app; auto.
        * rewrite M3. now apply min_inv_update.
        * rewrite M4. now apply max_inv_update.
  Qed.

  Lemma par_step d s its o : 1 <= d -> (Z.of_nat d < 2 ^ 53)%Z -> par_ok_op o -> par_inv d s its ->
    whenever (fun r => par_inv d (fst r) (its ++ items_of [o])) (step PD s o).
  Proof.
    intros Hd Hd2 Ho HI. destruct o as [x|l|v|q]; cbn [step items_of].
    - eapply whenever_bind with (P := fun s' => par_inv d s' (its ++ [x])); [|cbn; auto].
      destruct Ho as [A B]. apply par_step_buf; auto. cbn. lia.
    - rewrite app_nil_r. eapply whenever_bind with (P := fun s' => par_inv d s' (its ++ l)); [|cbn; auto].
      destruct Ho as (A & B & C). apply par_step_buf; auto.
    - rewrite app_nil_r. destruct HI as (H1 & (ns & H2 & H3) & H4).
      eapply whenever_bind; [apply par_est_q_state; exact H2|]. intros [s' a] (A & B & C). cbn [whenever fst] in *.
      split; [|split; [exists ns; auto|]]; rewrite ?B, ?C; auto.
      rewrite <- H1. apply Forall2_len in A. apply Forall2_len in H2. congruence.
    - rewrite app_nil_r. destruct HI as (H1 & (ns & H2 & H3) & H4).
      eapply whenever_bind; [apply par_est_v_state; exact H2|]. intros [s' a] (A & B & C). cbn [whenever fst] in *.
      split; [|split; [exists ns; auto|]]; rewrite ?B, ?C; auto.
      rewrite <- H1. apply Forall2_len in A. apply Forall2_len in H2. congruence.
  Qed.

  Theorem parallel_history sched (ds : list (dst D)) (ops : list (op F)) :
    ds <> [] -> (Z.of_nat (length ds) < 2 ^ 53)%Z -> Forall (fun d => I d 0) ds -> Forall par_ok_op ops ->
    whenever (fun r => d_count PD (fst r) = Ret (Z.of_nat (length (items_of ops))) /\
                       (items_of ops <> [] -> has_min (items_of ops) (p_min (fst r)) /\ has_max (items_of ops) (p_max (fst r))))
      (exec PD (parallel_new D sched ds) ops).
  Proof.
    intros Hne Hlen H0 Hok.
    assert (1 <= length ds) as Hd by (destruct ds; cbn; [congruence|lia]).
    eapply whenever_mono.
    - apply (@exec_whenever_ops F PD par_ok_op (par_inv (length ds))) with (its := []); [|exact Hok|].
      + intros s its o Ho HI. now apply par_step.
      + cbn. split; [reflexivity|]. split; [|split; [constructor|split]].
        * exists (repeat 0 (length ds)). split.
          -- clear -H0. induction H0; constructor; auto.
          -- clear. induction ds; cbn; auto.
        * split; auto. congruence.
        * split; auto. congruence.
    - intros [s a] (H1 & (ns & H2 & H3) & H4 & H5 & H6). cbn [fst app] in *. split.
      + cbn [d_count parallel_digest]. unfold parallel_count. rewrite (par_count H2), H3. reflexivity.
      + intros Hi. split; [apply H5|apply H6]; auto.
  Qed.
End Par.
