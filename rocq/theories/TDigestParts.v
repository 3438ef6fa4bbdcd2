(** Every centroid of a t-digest is the mean of its own part of the items, for every history, in exact arithmetic; and the
    exact answers at and between centroids. *)
From Coq Require Import List Arith ZArith Lia Bool Permutation Sorted Reals Lra.
From Flocq Require Import Core.
From Verif Require Import Base Floats XReal Digest TDigest Spec FloatFacts History TDigestProofs TDigestProofs2 TDigestExact TDigestExactQ TDigestExactV TDigestHist TDigestTop TDigestAcc.
Set Implicit Arguments.
Local Open Scope R_scope.

(** [gs] splits the items [l] into non-empty parts, and the centroids are their means and sizes *)
Definition partition_of (s : tdigest xr) (l : list R) (gs : list (list R)) : Prop :=
  Permutation (concat gs) l /\ Forall (fun g => g <> []) gs /\ listed s (map gcen gs).

Lemma gcen_single x : gcen [x] = ucen x.
Proof. unfold gcen, avg, ucen. cbn. f_equal. field. Qed.
Lemma gcen_concat gs : Forall (fun g => g <> []) gs -> ravg (map gcen gs) = gcen (concat gs).
Proof.
  intros H. assert (Wt (map gcen gs) = size (concat gs) /\ Sm (map gcen gs) = sumR (concat gs)) as [E1 E2].
  { induction H as [|g gs Hg H [IH1 IH2]]; [split; reflexivity|]. cbn [map concat]. rewrite size_app, sumR_app, <- IH1, <- IH2.
    split; [reflexivity|]. unfold Sm. cbn [map sumR fold_right]. f_equal. cbn [gcen fst snd]. apply avg_sum. exact Hg. }
  unfold ravg. rewrite E1, E2. reflexivity.
Qed.

Lemma perm_concat {A} (a b : list (list A)) : Permutation a b -> Permutation (concat a) (concat b).
Proof.
  induction 1 as [|x a b H IH|x y a|a b c H1 IH1 H2 IH2]; cbn [concat]; [constructor|now apply Permutation_app_head| |now rewrite IH1].
  rewrite !app_assoc. apply Permutation_app_tail, Permutation_app_comm.
Qed.

Section Parts.
  Variable cfg : tcfg xr.
  Hypothesis Hlib : lib_ok cfg.

  Lemma parts_merge s its l gs : texact s its -> partition_of s its gs ->
    exists s' gs', td_add_buffer cfg s (map XFin l) = Ret s' /\ texact s' (its ++ l) /\ partition_of s' (its ++ l) gs'.
  Proof.
    intros Hs (P1 & P2 & P3). destruct (add_buffer_exact Hlib l Hs) as (s' & E & Hs'). exists s'.
    destruct (list_eq_dec Req_EM_T (its ++ l) []) as [En|Hne].
    { exists []. split; [exact E|]. split; [exact Hs'|]. rewrite En. repeat split; [constructor|constructor|].
      destruct Hs' as [(_ & Hc & _)|(H & _)]; [exact Hc|congruence]. }
    unfold td_add_buffer in E. rewrite units_emb in E.
    assert (Forall heavy (map gcen gs)) as Hh.
    { rewrite Forall_map. eapply Forall_impl; [|exact P2]. cbn beta. intros g Hg. unfold heavy. cbn [gcen snd].
      exists (Z.of_nat (length g)). split; [destruct g; [congruence|cbn [length]; lia]|apply INR_IZR_INZ]. }
    assert (map ucen l ++ map gcen gs = map gcen (map (fun x => [x]) l ++ gs)) as Em.
    { rewrite map_app, map_map. f_equal. apply map_ext. intros x. symmetry. apply gcen_single. }
    assert (map ucen l ++ map gcen gs <> []) as Hne'.
    { intros En. apply Hne. apply app_eq_nil in En as [E1 E2]. apply map_eq_nil in E1, E2. subst l gs. cbn in P1.
      apply Permutation_nil in P1. now subst. }
    destruct (@merge_exact cfg Hlib s (map gcen gs) (map ucen l) P3 Hh (ucen_heavy l) Hne') as (srt & rs & first & lst & A1 & A2 & A3 & A4 & A5 & A6 & A7 & A8 & A9).
    rewrite A9 in E. injection E as <-.
    rewrite Em in A1. rewrite <- A3 in A1. apply Permutation_map_inv in A1 as (G & EG & PG).
    destruct (@map_groups _ _ gcen rs G EG) as (GG & -> & <-).
    exists (map (@concat R) GG). split; [unfold td_add_buffer; rewrite units_emb; exact A9|]. split; [exact Hs'|].
    assert (Forall (fun g => g <> []) (map (fun x : R => [x]) l ++ gs)) as Hall.
    { apply Forall_app. split; [apply Forall_map, Forall_forall; intros x _; discriminate|exact P2]. }
    assert (Forall (fun g : list R => g <> []) (concat GG)) as HGG by (eapply Permutation_Forall; [exact PG|exact Hall]).
    split; [|split].
    - assert (forall X : list (list (list R)), concat (map (@concat R) X) = concat (concat X)) as Hcc.
      { induction X as [|x X IH]; [reflexivity|]. cbn [map concat]. rewrite concat_app, IH. reflexivity. }
      rewrite Hcc. rewrite <- (perm_concat PG). rewrite concat_app.
      assert (concat (map (fun x : R => [x]) l) = l) as -> by (clear; induction l as [|x l IH]; [reflexivity|cbn; now rewrite IH]).
      rewrite Permutation_app_comm. now apply Permutation_app_tail.
    - rewrite Forall_map. rewrite Forall_map in A5. apply Forall_forall. intros X HX EX.
      rewrite Forall_forall in A5. specialize (A5 X HX). destruct X as [|x X]; [now apply A5|].
      rewrite Forall_forall in HGG. assert (x <> []) as Hx by (apply HGG, in_concat; exists (x :: X); split; [exact HX|now left]).
      cbn [concat] in EX. apply app_eq_nil in EX as [EX _]. contradiction.
    - unfold listed. cbn [t_centroids]. rewrite !map_map. apply map_ext_in. intros X HX. change (emb (ravg (map gcen X)) = emb (gcen (concat X))).
      f_equal. apply gcen_concat. apply Forall_forall. intros g Hg. rewrite Forall_forall in HGG. apply HGG, in_concat. eauto.
  Qed.

  Definition parted (s : tdigest xr) (its : list xr) : Prop := forall rs, its = map XFin rs ->
    texact s rs /\ exists gs, partition_of s rs gs.

  Lemma parted_step s its o : parted s its -> whenever (fun r => parted (fst r) (its ++ items_of [o])) (step (t_digest cfg) s o).
  Proof.
    intros H.
    assert (forall l, whenever (fun s' => parted s' (its ++ l)) (td_add_buffer cfg s l)) as Hb.
    { intros l. assert (Forall xfinite (its ++ l) \/ ~ Forall xfinite (its ++ l)) as [Hf|Hf].
      { generalize (its ++ l). clear. intros l. induction l as [|x l [H|H]]; [left; constructor| |right; intros HH; inversion HH; auto].
        destruct x as [| |r]; [right|right|left; constructor; [exists r|]; auto]; intros HH; inversion HH as [|? ? [r Hr]]; discriminate. }
      - assert (exists rs, its ++ l = map XFin rs) as (rs & Ers).
        { clear -Hf. induction Hf as [|x l' [r ->] H [rs IH]]; [exists []; reflexivity|]. exists (r :: rs). cbn [map]. now rewrite IH. }
        apply map_eq_app in Ers || (symmetry in Ers; apply map_eq_app in Ers). destruct Ers as (r1 & r2 & -> & <- & <-).
        destruct (H r1 eq_refl) as (H1 & gs & H2). destruct (@parts_merge s r1 r2 gs H1 H2) as (s' & gs' & -> & H3 & H4).
        cbn [whenever]. intros rs' E'. rewrite <- map_app in E'. apply map_XFin_inj in E'. subst rs'. split; [exact H3|eauto].
      - eapply whenever_mono; [apply whenever_true|]. intros s' _ rs' E'. exfalso. apply Hf. rewrite E'.
        apply Forall_map, Forall_forall. intros r _. exists r. auto. }
    destruct o as [x|l|v|q]; cbn [step t_digest d_add d_add_buffer d_est_q d_est_v items_of].
    - change (td_add cfg s x) with (td_add_buffer cfg s [x]). eapply whenever_bind; [apply Hb|]. intros s' H'. exact H'.
    - rewrite app_nil_r. eapply whenever_bind; [apply Hb|]. intros s' H'. exact H'.
    - rewrite app_nil_r, bind_assoc. cbn [bind]. eapply whenever_bind; [apply whenever_true|]. intros a _. exact H.
    - rewrite app_nil_r, bind_assoc. cbn [bind]. eapply whenever_bind; [apply whenever_true|]. intros a _. exact H.
  Qed.

  Theorem td_parts ops rs : items_of ops = map XFin rs ->
    whenever (fun r => texact (fst r) rs /\ exists gs, partition_of (fst r) rs gs) (exec (t_digest cfg) td_new ops).
  Proof.
    intros Hits. eapply whenever_mono.
    - refine (@exec_whenever xr (t_digest cfg) parted parted_step ops td_new [] _).
      intros rs0 E. symmetry in E. apply map_eq_nil in E. subst. split; [left; repeat split; reflexivity|].
      exists []. repeat split; constructor.
    - intros [s a] H. cbn [fst] in *. exact (H rs Hits).
  Qed.
End Parts.
