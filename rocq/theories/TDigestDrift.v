(** Accuracy of a t-digest after any history, in exact arithmetic: how far the centroids drift from the items, and the answers from the centroids. *)
From Coq Require Import List Arith ZArith Lia Bool Permutation Sorted Reals Lra.
From Flocq Require Import Core.
From Verif Require Import Base Floats XReal Digest TDigest Spec FloatFacts History TDigestProofs TDigestProofs2 TDigestExact TDigestExactQ TDigestExactV TDigestHist TDigestTop ScaleFunctions ScaleProofs TDigestScale TDigestAcc TDigestAcc2 TDigestParts TDigestAt TDigestAt2 TDigestCap.
Set Implicit Arguments.
Local Open Scope R_scope.

(** * Weight on one side of a value *)
Definition ltb (v x : R) : bool := if Rlt_dec x v then true else false.
Definition leb (v x : R) : bool := if Rle_dec x v then true else false.
Definition Wp (p : R -> bool) (cs : list rcen) : R := Wt (filter (fun c => p (fst c)) cs).
Definition cnt (p : R -> bool) (l : list R) : R := size (filter p l).
Definition half_line (p : R -> bool) : Prop := forall x y, x <= y -> p y = true -> p x = true.

Lemma ltb_half v : half_line (ltb v).
Proof. intros x y H. unfold ltb. destruct (Rlt_dec y v), (Rlt_dec x v); try congruence. lra. Qed.
Lemma leb_half v : half_line (leb v).
Proof. intros x y H. unfold leb. destruct (Rle_dec y v), (Rle_dec x v); try congruence. lra. Qed.

Lemma Wp_cons p c cs : Wp p (c :: cs) = (if p (fst c) then snd c else 0) + Wp p cs.
Proof. unfold Wp. cbn [filter]. destruct (p (fst c)); [apply Wt_cons|lra]. Qed.
Lemma Wp_app p a b : Wp p (a ++ b) = Wp p a + Wp p b.
Proof. unfold Wp. now rewrite filter_app, Wt_app. Qed.
Lemma Wp_perm p a b : Permutation a b -> Wp p a = Wp p b.
Proof. induction 1; rewrite ?Wp_cons; lra. Qed.
Lemma Wp_units p l : Wp p (map ucen l) = cnt p l.
Proof.
  induction l as [|x l IH]; [reflexivity|]. cbn [map]. rewrite Wp_cons, IH. unfold cnt. cbn [ucen fst snd filter].
  destruct (p x); cbn [length]; [rewrite S_INR|]; lra.
Qed.
Lemma cnt_app p a b : cnt p (a ++ b) = cnt p a + cnt p b.
Proof. unfold cnt. now rewrite filter_app, size_app. Qed.
Lemma Wp_all p cs : (forall c, In c cs -> p (fst c) = true) -> Wp p cs = Wt cs.
Proof.
  induction cs as [|c cs IH]; intros H; [reflexivity|]. rewrite Wp_cons, Wt_cons, (H c (or_introl eq_refl)), IH; [reflexivity|]. intros d Hd. apply H. now right.
Qed.
Lemma Wp_none p cs : (forall c, In c cs -> p (fst c) = false) -> Wp p cs = 0.
Proof.
  induction cs as [|c cs IH]; intros H; [reflexivity|]. rewrite Wp_cons, (H c (or_introl eq_refl)), IH; [lra|]. intros d Hd. apply H. now right.
Qed.
Lemma Wp_range p cs : Forall heavy cs -> 0 <= Wp p cs <= Wt cs.
Proof.
  induction 1 as [|c cs H _ IH]; [unfold Wp, Wt; cbn; lra|]. rewrite Wp_cons, Wt_cons. apply posint_ge in H. destruct (p (fst c)); lra.
Qed.
Lemma Wp_in p cs c : Forall heavy cs -> In c cs -> p (fst c) = true -> 1 <= Wp p cs.
Proof.
  intros H Hc E. apply in_split in Hc as (a & b & ->). apply Forall_app in H as [Ha Hb]. pose proof (Forall_inv Hb) as Hh. apply posint_ge in Hh.
  rewrite Wp_app, Wp_cons, E. pose proof (Wp_range p Ha). pose proof (Wp_range p (Forall_inv_tail Hb)). lra.
Qed.
Lemma Wp_out p cs c : Forall heavy cs -> In c cs -> p (fst c) = false -> Wp p cs <= Wt cs - 1.
Proof.
  intros H Hc E. apply in_split in Hc as (a & b & ->). apply Forall_app in H as [Ha Hb]. pose proof (Forall_inv Hb) as Hh. apply posint_ge in Hh.
  rewrite Wp_app, Wp_cons, E, Wt_app, Wt_cons. pose proof (Wp_range p Ha). pose proof (Wp_range p (Forall_inv_tail Hb)). lra.
Qed.

(** * One regrouping moves less than one group across any value *)
Lemma ravg_above g : Forall heavy g -> g <> [] -> exists c, In c g /\ fst (ravg g) <= fst c.
Proof.
  intros Hh Hne. destruct (Forall_Exists_dec (fun c : rcen => fst c < fst (ravg g)) (fun c => Rlt_dec (fst c) (fst (ravg g))) g) as [Ha|He].
  - exfalso. assert (exists m, m < fst (ravg g) /\ forall c, In c g -> fst c <= m) as (m & Hm & Hc).
    { clear Hh Hne. revert Ha. generalize (fst (ravg g)). intros a. induction g as [|c g IH]; intros H.
      - exists (a - 1). split; [lra|intros c []].
      - destruct (IH (Forall_inv_tail H)) as (m & Hm & Hc). exists (Rmax (fst c) m). split; [apply Rmax_lub_lt; [exact (Forall_inv H)|exact Hm]|].
        intros d [<-|Hd]; [apply Rmax_l|]. eapply Rle_trans; [exact (Hc d Hd)|apply Rmax_r]. }
    pose proof (ravg_le Hh Hne Hc). lra.
  - apply Exists_exists in He as (c & Hc & E). exists c. split; [exact Hc|lra].
Qed.
Lemma ravg_below g : Forall heavy g -> g <> [] -> exists c, In c g /\ fst c <= fst (ravg g).
Proof.
  intros Hh Hne. destruct (Forall_Exists_dec (fun c : rcen => fst (ravg g) < fst c) (fun c => Rlt_dec (fst (ravg g)) (fst c)) g) as [Ha|He].
  - exfalso. assert (exists m, fst (ravg g) < m /\ forall c, In c g -> m <= fst c) as (m & Hm & Hc).
    { clear Hh Hne. revert Ha. generalize (fst (ravg g)). intros a. induction g as [|c g IH]; intros H.
      - exists (a + 1). split; [lra|intros c []].
      - destruct (IH (Forall_inv_tail H)) as (m & Hm & Hc). exists (Rmin (fst c) m). split; [apply Rmin_glb_lt; [exact (Forall_inv H)|exact Hm]|].
        intros d [<-|Hd]; [apply Rmin_l|]. eapply Rle_trans; [apply Rmin_r|exact (Hc d Hd)]. }
    pose proof (ravg_ge Hh Hne Hc). lra.
  - apply Exists_exists in He as (c & Hc & E). exists c. split; [exact Hc|lra].
Qed.

Lemma rsorted_split a b : rsorted (a ++ b) -> rsorted b /\ forall x y, In x a -> In y b -> fst x <= fst y.
Proof.
  unfold rsorted. induction a as [|z a IH]; cbn [app]; intros H; [split; [exact H|intros x y []]|].
  apply StronglySorted_inv in H as [H Hz]. destruct (IH H) as [Hb Hab]. split; [exact Hb|].
  intros x y [->|Hx] Hy; [|auto]. rewrite Forall_forall in Hz. apply Hz, in_or_app. now right.
Qed.

Lemma regroup p rs W : half_line p -> Forall (Forall heavy) rs -> Forall (fun g => g <> []) rs -> rsorted (concat rs) -> 1 <= W ->
  (forall g, In g rs -> Wt g <= W) -> Rabs (Wp p (map ravg rs) - Wp p (concat rs)) <= W - 1.
Proof.
  intros Hp. induction rs as [|g rs IH]; intros Hh Hn Hs H1 HW.
  { cbn. rewrite Rminus_diag_eq, Rabs_R0 by reflexivity. lra. }
  pose proof (Forall_inv Hh) as Hg. pose proof (Forall_inv Hn) as Hgn. cbn [concat] in Hs. destruct (rsorted_split _ _ Hs) as [Hs' Ho].
  cbn [map concat]. rewrite Wp_cons, Wp_app. cbn [ravg snd]. fold (ravg g).
  destruct (ravg_above Hg Hgn) as (hi & Hhi & Ehi). destruct (ravg_below Hg Hgn) as (lo & Hlo & Elo).
  destruct (Forall_Exists_dec (fun c : rcen => p (fst c) = true) (fun c => bool_dec (p (fst c)) true) g) as [Ha|He].
  - (* the whole group is on the near side *)
    rewrite Forall_forall in Ha. rewrite (@Wp_all p g Ha).
    assert (p (fst (ravg g)) = true) as -> by (exact (Hp _ _ Ehi (Ha _ Hhi))).
    replace (Wt g + Wp p (map ravg rs) - (Wt g + Wp p (concat rs))) with (Wp p (map ravg rs) - Wp p (concat rs)) by ring.
    apply IH; auto; [exact (Forall_inv_tail Hh)|exact (Forall_inv_tail Hn)|]. intros h Hh'. apply HW. now right.
  - apply Exists_exists in He as (c & Hc & Ec). apply not_true_is_false in Ec.
    assert (forall d, In d (concat rs) -> p (fst d) = false) as Hrest.
    { intros d Hd. apply not_true_is_false. intros C. rewrite (Hp _ _ (Ho c d Hc Hd) C) in Ec. discriminate. }
    rewrite (@Wp_none p (concat rs) Hrest).
    rewrite (@Wp_none p (map ravg rs)).
    2:{ intros d Hd. apply in_map_iff in Hd as (h & <- & Hh'). assert (Forall heavy h /\ h <> []) as [Hhh Hhn].
        { pose proof (Forall_inv_tail Hh) as X. pose proof (Forall_inv_tail Hn) as Y. rewrite Forall_forall in X, Y. auto. }
        destruct (ravg_below Hhh Hhn) as (e & He & Ee). assert (In e (concat rs)) as Hin by (apply in_concat; eauto).
        apply not_true_is_false. intros C. pose proof (Hrest e Hin) as F. rewrite (Hp _ _ Ee C) in F. discriminate. }
    pose proof (HW g (or_introl eq_refl)) as Wg. pose proof (@Wp_out p g c Hg Hc Ec) as Hout.
    destruct (Forall_Exists_dec (fun c : rcen => p (fst c) = false) (fun c => bool_dec (p (fst c)) false) g) as [Hb|He'].
    + rewrite Forall_forall in Hb. rewrite (@Wp_none p g Hb).
      assert (p (fst (ravg g)) = false) as ->.
      { apply not_true_is_false. intros C. pose proof (Hp _ _ Elo C) as F. rewrite (Hb _ Hlo) in F. discriminate. }
      rewrite Rminus_diag_eq, Rabs_R0 by ring. lra.
    + apply Exists_exists in He' as (d & Hd & Ed). apply not_false_is_true in Ed. pose proof (@Wp_in p g d Hg Hd Ed) as Hin.
      apply Rabs_le. destruct (p (fst (ravg g))); lra.
Qed.

(** * The answers against the centroids *)
Lemma runW_sides v cs : Forall heavy cs -> rsorted cs -> (forall c, In c cs -> v <= fst c) -> runW v cs = Wp (leb v) cs.
Proof.
  induction cs as [|c cs IH]; intros Hh Hs Hv; [reflexivity|]. cbn [runW]. rewrite Wp_cons. unfold rsorted in Hs. apply StronglySorted_inv in Hs as [Hs Hc].
  pose proof (Hv c (or_introl eq_refl)) as H. destruct (Req_EM_T (fst c) v) as [E|E].
  - rewrite (IH (Forall_inv_tail Hh) Hs (fun d Hd => Hv d (or_intror Hd))). unfold leb at 2. destruct (Rle_dec (fst c) v); lra.
  - unfold leb at 1. destruct (Rle_dec (fst c) v); [lra|]. rewrite Wp_none; [lra|]. intros d Hd. rewrite Forall_forall in Hc. specialize (Hc d Hd).
    unfold leb. destruct (Rle_dec (fst d) v); [lra|reflexivity].
Qed.
Lemma lt_none v cs : (forall c, In c cs -> v <= fst c) -> Wp (ltb v) cs = 0.
Proof. intros H. apply Wp_none. intros c Hc. specialize (H c Hc). unfold ltb. destruct (Rlt_dec (fst c) v); [lra|reflexivity]. Qed.
Lemma lt_le v cs : Forall heavy cs -> Wp (ltb v) cs <= Wp (leb v) cs.
Proof.
  induction 1 as [|c cs H _ IH]; [unfold Wp; cbn; lra|]. rewrite !Wp_cons. apply posint_ge in H. unfold ltb at 1, leb at 1.
  destruct (Rlt_dec (fst c) v), (Rle_dec (fst c) v); lra.
Qed.
Lemma below_head c cs v : rsorted (c :: cs) -> v <= fst c -> forall d, In d (c :: cs) -> v <= fst d.
Proof.
  intros Hs Hv d [<-|Hd]; [exact Hv|]. unfold rsorted in Hs. apply StronglySorted_inv in Hs as [_ H]. rewrite Forall_forall in H. specialize (H d Hd). cbn beta in H. lra.
Qed.

Section Against.
  Variable M : R.
  Hypothesis M1 : 1 <= M.

  Definition close (v P e : R) (cs : list rcen) : Prop := P + Wp (ltb v) cs - M <= e <= P + Wp (leb v) cs + M.

  Lemma lq_close v T cs : Forall heavy cs -> rsorted cs -> (forall c, In c cs -> snd c / 2 <= M) -> cs <> [] -> forall P, P + Wt cs = T ->
    (forall c, head cs = Some c -> fst c <= v) -> v <= lastm cs -> close v P (lq v T P cs) cs.
  Proof.
    induction cs as [|c cs IH]; intros Hh Hs HM Hne P HT Hhd Hl; [congruence|]. specialize (Hhd c eq_refl).
    pose proof (Forall_inv Hh) as Hc. pose proof (posint_ge Hc) as Wc. unfold close.
    destruct cs as [|d cs].
    - unfold lastm in Hl. cbn [last_error] in Hl. assert (fst c = v) as E by (apply Rle_antisym; assumption). cbn [lq]. rewrite !Wp_cons.
      unfold ltb, leb. rewrite E. destruct (Rlt_dec v v); [lra|]. destruct (Rle_dec v v); [|lra]. unfold Wp. cbn [filter]. rewrite Wt_cons in HT. unfold Wt in *. cbn [map sumR fold_right] in *.
      destruct (Req_EM_T (snd c) 1); lra.
    - pose proof (Forall_inv (Forall_inv_tail Hh)) as Hd. pose proof (posint_ge Hd) as Wd. rewrite lq_cons.
      assert (fst c <= fst d) as Hcd by (unfold rsorted in Hs; apply StronglySorted_inv in Hs as [_ H]; exact (Forall_inv H)).
      destruct (Req_EM_T (fst c) v) as [E|E].
      + assert (forall x, In x (c :: d :: cs) -> v <= fst x) as Hv by (apply below_head; [exact Hs|lra]).
        rewrite (lt_none _ Hv), <- (runW_sides Hh Hs Hv). pose proof (runW_bounds v Hh). destruct (Req_EM_T (runW v (c :: d :: cs)) 1); lra.
      + assert (rsorted (d :: cs)) as Hs' by (unfold rsorted in *; apply StronglySorted_inv in Hs; tauto).
        rewrite !(Wp_cons _ c). unfold ltb at 1, leb at 1. destruct (Rlt_dec (fst c) v) as [L|L]; [|lra]. destruct (Rle_dec (fst c) v); [|lra].
        destruct (Rlt_dec v (fst d)) as [Ld|Ld].
        * assert (forall x, In x (d :: cs) -> v <= fst x) as Hv by (apply below_head; [exact Hs'|lra]). rewrite (lt_none _ Hv).
          pose proof (Wp_range (leb v) (Forall_inv_tail Hh)). pose proof (@between_range v P c d Hc Hd Hhd Ld) as Hb.
          pose proof (HM c (or_introl eq_refl)). pose proof (HM d (or_intror (or_introl eq_refl))).
          assert (dhalf d <= M) by (unfold dhalf; destruct (Req_EM_T (snd d) 1); lra). lra.
        * assert (close v (P + snd c) (lq v T (P + snd c) (d :: cs)) (d :: cs)) as HI.
          { apply IH; [exact (Forall_inv_tail Hh)|exact Hs'|intros x Hx; apply HM; now right|congruence| |intros x Ex; cbn in Ex; injection Ex as <-; lra|exact Hl].
            rewrite Wt_cons in HT. lra. }
          unfold close in HI. lra.
  Qed.

  (** the position [cw] is half way through the first centroid *)
  Lemma lv_close t cs : Forall heavy cs -> rsorted cs -> (forall c, In c cs -> snd c / 2 <= M) -> forall cw c0, head cs = Some c0 -> cw <= t -> t < endw cw cs ->
    close (lv t cw cs) (cw - snd c0 / 2) t cs.
  Proof.
    induction cs as [|c cs IH]; intros Hh Hs HM cw c0 Hh0 Hct Hte; [discriminate|]. cbn in Hh0. injection Hh0 as <-.
    pose proof (Forall_inv Hh) as Hc. pose proof (posint_ge Hc) as Wc. pose proof (HM c (or_introl eq_refl)) as Mc.
    destruct cs as [|d cs]; [cbn in Hte; lra|].
    pose proof (Forall_inv (Forall_inv_tail Hh)) as Hd. pose proof (posint_ge Hd) as Wd. pose proof (HM d (or_intror (or_introl eq_refl))) as Md.
    assert (fst c <= fst d) as Hcd by (unfold rsorted in Hs; apply StronglySorted_inv in Hs as [_ H]; exact (Forall_inv H)).
    assert (rsorted (d :: cs)) as Hs' by (unfold rsorted in *; apply StronglySorted_inv in Hs; tauto).
    rewrite lv_cons. change (t < endw (cw + (snd c + snd d) / 2) (d :: cs)) in Hte. unfold close. rewrite !(Wp_cons _ c).
    destruct (Rlt_dec t (cw + (snd c + snd d) / 2)) as [L|L].
    - pose proof (@vbet_range t cw c d Hcd) as Hr. set (x := vbet t cw c d) in *.
      assert (forall y, In y (d :: cs) -> x <= fst y) as Hv by (apply below_head; [exact Hs'|lra]). rewrite (lt_none _ Hv).
      pose proof (Wp_range (leb x) (Forall_inv_tail Hh)) as Hn.
      unfold leb at 1. destruct (Rle_dec (fst c) x); [|lra]. unfold ltb. destruct (Rlt_dec (fst c) x); lra.
    - assert (close (lv t (cw + (snd c + snd d) / 2) (d :: cs)) (cw + (snd c + snd d) / 2 - snd d / 2) t (d :: cs)) as HI.
      { apply (IH (Forall_inv_tail Hh) Hs' (fun x Hx => HM x (or_intror Hx)) _ d eq_refl); [lra|exact Hte]. }
      unfold close in HI. set (x := lv t (cw + (snd c + snd d) / 2) (d :: cs)) in *.
      assert (exists cl, last_error (d :: cs) = Some cl) as (cl & El).
      { destruct (exists_last (l := d :: cs) ltac:(congruence)) as (a & y & E). exists y. rewrite E. apply last_error_app. }
      pose proof (@lv_range t (d :: cs) Hs' (cw + (snd c + snd d) / 2) d cl eq_refl El) as Hr. fold x in Hr.
      unfold leb at 1. destruct (Rle_dec (fst c) x); [|lra]. unfold ltb at 1. destruct (Rlt_dec (fst c) x); lra.
  Qed.

  Variables (s : tdigest xr) (cs : list rcen) (lo hi : R).
  Hypothesis HI : tview s cs lo hi.
  Hypothesis HM : forall c, In c cs -> snd c / 2 <= M.

  Let Hrng c : In c cs -> lo <= fst c <= hi.
  Proof. intros Hc. pose proof (tv_rng HI) as H. rewrite Forall_forall in H. exact (H c Hc). Qed.

  Lemma edge_M w t : 1 <= w -> w / 2 <= M -> 0 <= t <= 1 -> 0 <= 1 + t * (w / 2 - 1) <= M.
  Proof. intros Hw HwM Ht. destruct (Rle_dec 1 (w / 2)); nra. Qed.

  Lemma all_below v c : cs <> [] -> last_error cs = Some c -> fst c < v -> Wp (ltb v) cs = Wt cs /\ Wp (leb v) cs = Wt cs.
  Proof.
    intros Hne El Hv. assert (forall d, In d cs -> fst d < v) as H.
    { intros d Hd. destruct (exists_last Hne) as (a & y & E). rewrite E, last_error_app in El. injection El as ->.
      pose proof (tv_sorted HI) as Hs. rewrite E in Hs, Hd. destruct (rsorted_split _ _ Hs) as [_ Ho].
      apply in_app_or in Hd as [Hd|[<-|[]]]; [|exact Hv]. specialize (Ho d c Hd (or_introl eq_refl)). lra. }
    split; apply Wp_all; intros d Hd; specialize (H d Hd); unfold ltb, leb; [destruct (Rlt_dec (fst d) v)|destruct (Rle_dec (fst d) v)]; lra || reflexivity.
  Qed.

  Lemma rq_close v : close v 0 (rq cs lo hi v) cs.
  Proof.
    pose proof (tv_heavy HI) as Hh. pose proof (Wp_range (ltb v) Hh) as R1. pose proof (Wp_range (leb v) Hh) as R2. pose proof (tv_ne HI) as Hne.
    unfold rq, close. destruct (Rlt_dec v lo) as [L1|L1].
    { rewrite (@lt_none v cs); [lra|]. intros c Hc. specialize (Hrng c Hc). lra. }
    destruct (Rlt_dec hi v) as [L2|L2].
    { rewrite (@Wp_all (leb v) cs); [lra|]. intros c Hc. specialize (Hrng c Hc). unfold leb. destruct (Rle_dec (fst c) v); [reflexivity|lra]. }
    destruct cs as [|c [|d cs']] eqn:Ecs; [congruence| |].
    { pose proof (HM c (or_introl eq_refl)). unfold Wp in *. unfold Wt in *. cbn [map sumR fold_right] in *. lra. }
    rewrite <- Ecs in *.
    destruct (last_weight HI Hne) as (Hl & Hd0 & Il & Id & _). pose proof (posint_ge Hl) as Wl. pose proof (posint_ge Hd0) as Wd.
    pose proof (HM _ Il) as Ml. pose proof (HM _ Id) as Md. pose proof (cs_last Hne) as El. pose proof (Hrng _ Il) as Rl. pose proof (Hrng _ Id) as Rd.
    assert (headc cs = c) as Ehd by (unfold headc; rewrite Ecs; reflexivity).
    pose proof (tv_sorted HI) as Hs.
    destruct (Rlt_dec v (fst (headc cs))) as [L3|L3].
    { assert (Wp (ltb v) cs = 0) as ->.
      { apply lt_none. rewrite Ecs. apply below_head; [rewrite <- Ecs; exact Hs|]. rewrite <- Ehd. lra. }
      destruct (Req_EM_T v lo); [lra|].
      assert (0 <= (v - lo) / (fst (headc cs) - lo) <= 1) as Ht by (apply ratio_unit; lra).
      pose proof (edge_M Wd Md Ht). lra. }
    destruct (Rlt_dec (fst (lastc cs)) v) as [L4|L4].
    { destruct (all_below Hne El L4) as [-> ->]. destruct (Req_EM_T v hi); [lra|].
      assert (0 <= (hi - v) / (hi - fst (lastc cs)) <= 1) as Ht.
      { replace ((hi - v) / (hi - fst (lastc cs))) with (((- v) - (- hi)) / ((- fst (lastc cs)) - (- hi))) by (field; lra). apply ratio_unit; lra. }
      pose proof (edge_M Wl Ml Ht). lra. }
    pose proof (@lq_close v (Wt cs) cs Hh Hs HM Hne 0) as HQ. unfold close in HQ. apply HQ.
    - ring.
    - intros x Hx. rewrite Ecs in Hx. cbn in Hx. injection Hx as <-. rewrite Ehd in L3. lra.
    - unfold lastm. rewrite El. lra.
  Qed.

  Lemma rv_close t : 0 <= t <= Wt cs -> clear_of_last cs t -> close (rv cs lo hi t) 0 t cs.
  Proof.
    intros Ht Hcl. pose proof (tv_heavy HI) as Hh. pose proof (tv_ne HI) as Hne. pose proof (tv_sorted HI) as Hs.
    destruct (last_weight HI Hne) as (Hl & Hd0 & Il & Id & _). pose proof (posint_ge Hl) as Wl. pose proof (posint_ge Hd0) as Wd.
    pose proof (HM _ Il) as Ml. pose proof (HM _ Id) as Md. pose proof (Hrng _ Id) as Rd. pose proof (cs_last Hne) as El.
    assert (forall c, In c cs -> fst (headc cs) <= fst c) as Hfst.
    { destruct cs as [|c cs'] eqn:Ecs; [congruence|]. cbn [headc]. apply below_head; [exact Hs|lra]. }
    unfold close. unfold rv. destruct (Rlt_dec t 1) as [L1|L1].
    { pose proof (Wp_range (leb lo) Hh). rewrite (@lt_none lo cs); [lra|]. intros c Hc. now apply Hrng. }
    destruct (Rlt_dec t (snd (headc cs) / 2)) as [L2|L2].
    { set (x := lo + _). assert (x <= fst (headc cs)) as Hx.
      { assert (0 <= (t - 1) / (snd (headc cs) / 2 - 1) <= 1) as H by (apply ratio_unit; lra). unfold x. nra. }
      pose proof (Wp_range (leb x) Hh). rewrite (@lt_none x cs); [lra|]. intros c Hc. specialize (Hfst c Hc). lra. }
    destruct (Rlt_dec (Wt cs - 1) t) as [L3|L3].
    { pose proof (Wp_range (ltb hi) Hh). rewrite (@Wp_all (leb hi) cs); [lra|]. intros c Hc. unfold leb. specialize (Hrng c Hc). destruct (Rle_dec (fst c) hi); [reflexivity|lra]. }
    assert (head cs = Some (headc cs)) as Ehd by (destruct cs; [congruence|reflexivity]).
    destruct (@last_half s cs lo hi HI t Hcl) as [HL _]; [lra|lra|lra|lra|].
    pose proof (@lv_close t cs Hh Hs HM (snd (headc cs) / 2) (headc cs) Ehd) as HV. unfold close in HV.
    replace (snd (headc cs) / 2 - snd (headc cs) / 2) with 0 in HV by ring. apply HV; [lra|].
    rewrite (endw_val _ _ Ehd El). lra.
  Qed.
End Against.

(** * Histories *)
(** number of items held after each insertion call *)
Fixpoint counts (m : nat) (ops : list (op xr)) : list nat :=
  match ops with
  | [] => []
  | Add _ :: ops' => S m :: counts (S m) ops'
  | AddBuf l :: ops' => (m + length l)%nat :: counts (m + length l) ops'
  | _ :: ops' => counts m ops'
  end.
(** the heaviest a centroid can be, starting from [w], when the step at n items is [lam n] wide *)
Fixpoint heaviest (lam : R -> R) (w : R) (ms : list nat) : R :=
  match ms with [] => w | m :: ms' => heaviest lam (Rmax w (lam (INR m) * INR m)) ms' end.
(** one less than that weight, added up over the insertion calls *)
Fixpoint drift (lam : R -> R) (w : R) (ms : list nat) : R :=
  match ms with [] => 0 | m :: ms' => (Rmax w (lam (INR m) * INR m) - 1) + drift lam (Rmax w (lam (INR m) * INR m)) ms' end.

Section Drift.
  Variables (cfg : tcfg xr) (k inv : xr -> xr -> xr -> xr) (cf : R) (lam : R -> R).
  Hypothesis HS : with_scale cfg k inv cf.
  Let Hlib : lib_ok cfg := proj1 HS.
  Let Hcf : tc_cf cfg = XFin cf := proj2 (proj2 (proj2 HS)).

  Definition drifted (s : tdigest xr) (its : list R) (w d : R) : Prop :=
    texact s its /\ forall cs, listed s cs -> (forall c, In c cs -> snd c <= w) /\ forall p, half_line p -> Rabs (Wp p cs - cnt p its) <= d.

  Lemma drift_merge s its l w d : 1 <= w -> drifted s its w d -> its ++ l <> [] ->
    ((2 <= length (its ++ l))%nat -> step_width k inv cf (size (its ++ l)) (lam (size (its ++ l)))) ->
    exists s', td_add_buffer cfg s (map XFin l) = Ret s' /\
      drifted s' (its ++ l) (Rmax w (lam (size (its ++ l)) * size (its ++ l))) (d + (Rmax w (lam (size (its ++ l)) * size (its ++ l)) - 1)).
  Proof.
    intros Hw1 [Hs HC] Hne Hstep. destruct (@merge_groups cfg cf Hcf Hlib s its l Hs Hne) as (s' & old & rs & A1 & A2 & A3 & A4 & A5 & A6 & A7 & A8 & A9).
    exists s'. split; [exact A1|]. destruct (add_buffer_exact Hlib l Hs) as (s2 & E2 & H2). pose proof (eq_trans (eq_sym E2) A1) as E. injection E as ->.
    split; [exact H2|]. intros cs Hcs.
    assert (cs = map ravg rs) as -> by (apply emb_inj; exact (eq_trans (eq_sym Hcs) A6)).
    set (n := size (its ++ l)) in *. set (W := Rmax w (lam n * n)). destruct (HC _ A2) as [Ho Hd].
    assert (w <= W) as HwW by apply Rmax_l.
    assert (0 < n) as Hn by (apply lt_0_INR; destruct (its ++ l); [congruence|cbn; lia]).
    assert (forall g, In g rs -> Wt g <= W) as HW.
    { intros g Hg. destruct (le_lt_dec 2 (length g)) as [H2'|H2'].
      - apply in_split in Hg as (pre & post & Eg). pose proof (@greedy_fits _ n rs 0 A9 pre g post Eg H2') as HF. rewrite Rplus_0_l in HF.
        assert (forall x, Forall (Forall heavy) x -> 0 <= Wt (concat x)) as Hnn.
        { intros x Hx. apply Wt_nonneg. induction Hx; [constructor|]. cbn [concat]. now apply Forall_app. }
        rewrite Eg in A8, A7. apply Forall_app in A8 as [Hp Hq]. pose proof (Forall_inv Hq) as Hhg. pose proof (Hnn _ Hp) as P1. pose proof (Hnn _ (Forall_inv_tail Hq)) as P2.
        rewrite concat_app, Wt_app in A7. cbn [concat] in A7. rewrite Wt_app in A7. fold n in A7.
        assert (g <> []) as Hgn by (intros ->; cbn in H2'; lia). pose proof (posint_ge (Wt_posint Hhg Hgn)) as P3.
        assert (0 < / n) as Hin by now apply Rinv_0_lt_compat.
        assert (2 <= length (its ++ l))%nat as Hn2.
        { assert (2 <= Wt g) as W2. { destruct g as [|a [|b g']]; cbn in H2'; try lia. rewrite !Wt_cons. pose proof (Forall_inv Hhg) as Ha. pose proof (Forall_inv (Forall_inv_tail Hhg)) as Hb. apply posint_ge in Ha, Hb.
            pose proof (Wt_nonneg (Forall_inv_tail (Forall_inv_tail Hhg))). lra. }
          apply INR_le. fold n. change (INR 2) with 2. lra. }
        assert ((Wt (concat pre) + Wt g) / n - Wt (concat pre) / n <= lam n) as HB.
        { pose proof (proj1 (proj2 HS)) as Ek. pose proof (proj1 (proj2 (proj2 HS))) as Ei. rewrite Ek, Ei in HF. refine (Hstep Hn2 _ _ _ _ _ HF).
          - unfold Rdiv; nra.
          - unfold Rdiv; nra.
          - apply Rmult_le_reg_r with n; [exact Hn|]. unfold Rdiv. rewrite Rmult_assoc, Rinv_l by lra. lra. }
        apply (Rmult_le_compat_r n) in HB; [|lra]. replace (((Wt (concat pre) + Wt g) / n - Wt (concat pre) / n) * n) with (Wt g) in HB by (field; lra).
        eapply Rle_trans; [exact HB|apply Rmax_r].
      - rewrite Forall_forall in A5. pose proof (A5 g Hg) as Hgn. destruct g as [|c [|e g]]; [congruence| |cbn in H2'; lia].
        rewrite Wt_cons. unfold Wt. cbn [map sumR fold_right]. rewrite Rplus_0_r.
        assert (In c (map ucen l ++ old)) as Hc by (eapply Permutation_in; [exact A3|]; apply in_concat; exists [c]; split; [exact Hg|now left]).
        apply in_app_or in Hc as [Hc|Hc]; [apply in_map_iff in Hc as (x & <- & _); cbn [ucen snd]; lra|]. specialize (Ho c Hc). lra. }
    split.
    - intros c Hc. apply in_map_iff in Hc as (g & <- & Hg). cbn [ravg snd]. exact (HW g Hg).
    - intros p Hp. assert (1 <= W) as HW1 by lra. pose proof (@regroup p rs W Hp A8 A5 A4 HW1 HW) as HR.
      rewrite (Wp_perm p A3), Wp_app, Wp_units in HR. specialize (Hd p Hp). rewrite cnt_app.
      replace (Wp p (map ravg rs) - (cnt p its + cnt p l)) with ((Wp p (map ravg rs) - (cnt p l + Wp p old)) + (Wp p old - cnt p its)) by ring.
      eapply Rle_trans; [apply Rabs_triang|]. lra.
  Qed.

  Lemma drifted_mono s its w d w' d' : w <= w' -> d <= d' -> drifted s its w d -> drifted s its w' d'.
  Proof.
    intros Hw Hd [H1 H2]. split; [exact H1|]. intros cs Hcs. destruct (H2 cs Hcs) as [A B]. split.
    - intros c Hc. specialize (A c Hc). lra.
    - intros p Hp. specialize (B p Hp). lra.
  Qed.

  Lemma items_split (o : op xr) ops rs : items_of (o :: ops) = map XFin rs ->
    exists r1 r2, rs = r1 ++ r2 /\ items_of [o] = map XFin r1 /\ items_of ops = map XFin r2.
  Proof.
    rewrite items_of_cons. intros E. symmetry in E. apply map_eq_app in E as (r1 & r2 & -> & E1 & E2). exists r1, r2. auto.
  Qed.

  Theorem td_drift_from ops : forall s its rs w d, 1 <= w -> drifted s its w d -> items_of ops = map XFin rs ->
    (forall m, In m (counts (length its) ops) -> (2 <= m)%nat -> step_width k inv cf (INR m) (lam (INR m))) ->
    whenever (fun r => drifted (fst r) (its ++ rs) (heaviest lam w (counts (length its) ops)) (d + drift lam w (counts (length its) ops)))
      (exec (t_digest cfg) s ops).
  Proof.
    assert (forall s its l w d m, 1 <= w -> drifted s its w d -> m = length (its ++ l) -> ((2 <= m)%nat -> step_width k inv cf (INR m) (lam (INR m))) ->
      whenever (fun s' => drifted s' (its ++ l) (Rmax w (lam (INR m) * INR m)) (d + (Rmax w (lam (INR m) * INR m) - 1))) (td_add_buffer cfg s (map XFin l))) as Hb.
    { intros s its l w d m Hw Hd -> Hst. destruct (its ++ l) as [|x0 r0] eqn:Er.
      - apply app_eq_nil in Er as [-> ->]. destruct (add_buffer_exact Hlib [] (proj1 Hd)) as (s' & E & H3). rewrite E. cbn [whenever].
        cbn [app] in H3. split; [exact H3|]. intros cs Hcs. destruct H3 as [(_ & E3 & _)|(N & _)]; [|congruence].
        unfold listed in Hcs. rewrite E3 in Hcs. destruct cs; [|discriminate]. split; [intros c []|]. intros p Hp.
        assert (listed s []) as Hl0. { destruct Hd as [[(_ & E0 & _)|(N & _)] _]; [exact E0|congruence]. }
        destruct Hd as [_ Hd]. destruct (Hd [] Hl0) as [_ Hd']. specialize (Hd' p Hp). pose proof (Rmax_l w (lam (INR 0) * INR 0)). cbn [length]. lra.
      - rewrite <- Er in *. assert (its ++ l <> []) as Hne by (rewrite Er; discriminate).
        destruct (@drift_merge s its l w d Hw Hd Hne) as (s' & E & H3); [exact Hst|]. rewrite E. exact H3. }
    induction ops as [|o ops IH]; intros s its rs w d Hw Hd Hits Hst.
    - cbn in Hits. symmetry in Hits. apply map_eq_nil in Hits. subst rs. cbn. rewrite app_nil_r. eapply drifted_mono; [| |exact Hd]; cbn; lra.
    - destruct (items_split _ _ _ Hits) as (r1 & r2 & -> & E1 & E2). rewrite app_assoc. cbn [exec].
      destruct o as [x|l|v|q]; cbn [step t_digest d_add d_add_buffer d_est_q d_est_v].
      + cbn [items_of] in E1. destruct r1 as [|x1 [|? ?]]; try discriminate. cbn [map] in E1. injection E1 as ->.
        rewrite bind_assoc. cbn [bind]. change (td_add cfg s (XFin x1)) with (td_add_buffer cfg s (map XFin [x1])).
        cbn [counts] in Hst |- *. assert (S (length its) = length (its ++ [x1])) as El by (rewrite app_length; cbn; lia). rewrite El in Hst |- *.
        eapply whenever_bind; [refine (@Hb s its [x1] w d _ Hw Hd eq_refl _); intros H; apply Hst; [now left|exact H]|].
        intros s' H'. cbn beta in H'. cbn [drift heaviest].
        eapply whenever_bind; [refine (IH _ _ r2 _ _ _ H' E2 _)|].
        * pose proof (Rmax_l w (lam (size (its ++ [x1])) * size (its ++ [x1]))). lra.
        * intros m Hm. apply Hst. now right.
        * intros [s'' b] H''. cbn [whenever always fst] in *. eapply drifted_mono; [| |exact H'']; lra.
      + cbn [items_of] in E1. rewrite app_nil_r in E1. subst l.
        rewrite bind_assoc. cbn [bind].
        cbn [counts] in Hst |- *. assert ((length its + length (map XFin r1))%nat = length (its ++ r1)) as El by (rewrite app_length, map_length; lia). rewrite El in Hst |- *.
        eapply whenever_bind; [refine (@Hb s its r1 w d _ Hw Hd eq_refl _); intros H; apply Hst; [now left|exact H]|].
        intros s' H'. cbn beta in H'. cbn [drift heaviest].
        eapply whenever_bind; [refine (IH _ _ r2 _ _ _ H' E2 _)|].
        * pose proof (Rmax_l w (lam (size (its ++ r1)) * size (its ++ r1))). lra.
        * intros m Hm. apply Hst. now right.
        * intros [s'' b] H''. cbn [whenever always fst] in *. eapply drifted_mono; [| |exact H'']; lra.
      + cbn [items_of] in E1. destruct r1; [|discriminate]. rewrite app_nil_r. cbn [counts] in Hst |- *.
        rewrite !bind_assoc. eapply whenever_bind; [apply whenever_true|]. intros a _. cbn [bind].
        eapply whenever_bind; [exact (IH s its r2 w d Hw Hd E2 Hst)|]. intros [s'' b] H''. exact H''.
      + cbn [items_of] in E1. destruct r1; [|discriminate]. rewrite app_nil_r. cbn [counts] in Hst |- *.
        rewrite !bind_assoc. eapply whenever_bind; [apply whenever_true|]. intros a _. cbn [bind].
        eapply whenever_bind; [exact (IH s its r2 w d Hw Hd E2 Hst)|]. intros [s'' b] H''. exact H''.
  Qed.

  (** the answers of a drifted digest *)
  Lemma drifted_answers s its w d : 1 <= w -> its <> [] -> drifted s its w d -> answers s its (within its (d + Rmax 1 (w / 2))).
  Proof.
    intros Hw Hne [[(E & _)|(_ & cs & lo & hi & HI)] Hd]; [congruence|]. destruct (Hd cs (ti_cs HI)) as [Ho Hp].
    assert (1 <= Rmax 1 (w / 2)) as M1 by apply Rmax_l.
    assert (forall c, In c cs -> snd c / 2 <= Rmax 1 (w / 2)) as HM by (intros c Hc; specialize (Ho c Hc); eapply Rle_trans; [|apply Rmax_r]; lra).
    pose proof (size_pos Hne) as Hn.
    assert (forall x e, close (Rmax 1 (w / 2)) x 0 e cs -> within its (d + Rmax 1 (w / 2)) e x) as Hw'.
    { intros x e He. unfold close in He. unfold within. pose proof (Hp _ (@ltb_half x)) as H1. pose proof (Hp _ (@leb_half x)) as H2.
      change (cnt (ltb x) its) with (below x its) in H1. change (cnt (leb x) its) with (upto x its) in H2.
      apply Rabs_le_inv in H1, H2. lra. }
    split.
    - intros v. exists (rq cs lo hi v / Wt cs). split; [exact (est_q_value HI v)|]. apply Hw'.
      replace (size its * (rq cs lo hi v / Wt cs)) with (rq cs lo hi v) by (rewrite (ti_wt HI); field; lra).
      exact (@rq_close _ M1 s cs lo hi HI HM v).
    - intros cs' last q Hcs Hla H64 Hq Hc. rewrite (listed_fun Hcs (ti_cs HI)) in *.
      assert (last = lastc cs) as ->. { pose proof (eq_trans (eq_sym (cs_last (ti_ne HI))) Hla) as E. now injection E. }
      assert (clear_of_last cs (Wt cs * q)) as Hcl by (unfold clear_of_last; rewrite (ti_wt HI); exact Hc).
      exists (rv cs lo hi (Wt cs * q)). split.
      + apply (est_v_value HI); [exact Hq| |exact Hcl]. rewrite (ti_wt HI), INR_IZR_INZ. now apply IZR_lt.
      + apply Hw'. rewrite <- (ti_wt HI). apply (@rv_close _ M1 s cs lo hi HI HM); [|exact Hcl]. rewrite (ti_wt HI). nra.
  Qed.

  Theorem td_drift ops rs : items_of ops = map XFin rs -> rs <> [] ->
    (forall m, In m (counts 0 ops) -> (2 <= m)%nat -> step_width k inv cf (INR m) (lam (INR m))) ->
    whenever (fun r => (exists cs, listed (fst r) cs /\ forall c, In c cs -> snd c <= heaviest lam 1 (counts 0 ops)) /\
                       answers (fst r) rs (within rs (drift lam 1 (counts 0 ops) + Rmax 1 (heaviest lam 1 (counts 0 ops) / 2))))
      (exec (t_digest cfg) td_new ops).
  Proof.
    intros Hits Hne Hst. assert (drifted td_new [] 1 0) as H0.
    { split; [left; repeat split; reflexivity|]. intros cs Hcs. unfold listed in Hcs. destruct cs; [|discriminate]. split; [intros c []|].
      intros p _. unfold Wp, cnt, Wt. cbn. rewrite Rminus_diag_eq, Rabs_R0 by reflexivity. lra. }
    eapply whenever_mono; [exact (@td_drift_from ops td_new [] rs 1 0 (Rle_refl 1) H0 Hits Hst)|].
    intros [s a] H. cbn [fst app length] in *. rewrite Rplus_0_l in H. split.
    - destruct H as [[(E & _)|(_ & cs & lo & hi & HI)] Hd]; [congruence|]. exists cs. split; [exact (ti_cs HI)|]. apply (Hd cs (ti_cs HI)).
    - apply drifted_answers; [|exact Hne|exact H]. generalize (counts 0 ops). intros ms. assert (forall w, 1 <= w -> 1 <= heaviest lam w ms) as Hg; [|apply Hg; lra].
      induction ms as [|m ms IH]; intros w Hw; cbn [heaviest]; [exact Hw|]. apply IH. eapply Rle_trans; [exact Hw|apply Rmax_l].
  Qed.

  (** uniform form: one bound for all the steps *)
  Lemma heaviest_le W ms : forall w, w <= W -> (forall m, In m ms -> lam (INR m) * INR m <= W) -> heaviest lam w ms <= W.
  Proof.
    induction ms as [|m ms IH]; intros w Hw H; cbn [heaviest]; [exact Hw|]. apply IH; [|intros x Hx; apply H; now right].
    apply Rmax_lub; [exact Hw|apply H; now left].
  Qed.
  Lemma drift_le W ms : forall w, w <= W -> (forall m, In m ms -> lam (INR m) * INR m <= W) -> drift lam w ms <= size ms * (W - 1).
  Proof.
    induction ms as [|m ms IH]; intros w Hw H; cbn [drift]; [cbn; lra|].
    assert (Rmax w (lam (INR m) * INR m) <= W) as HR by (apply Rmax_lub; [exact Hw|apply H; now left]).
    specialize (IH _ HR (fun x Hx => H x (or_intror Hx))). cbn [length]. rewrite S_INR. lra.
  Qed.
End Drift.

(** number of insertion calls *)
Definition calls (ops : list (op xr)) : nat := length (filter (fun o => match o with Add _ | AddBuf _ => true | _ => false end) ops).
Lemma counts_length ops : forall m, length (counts m ops) = calls ops.
Proof. unfold calls. induction ops as [|[x|l|v|q] ops IH]; intros m; cbn [counts filter length]; rewrite ?IH; reflexivity. Qed.
Lemma counts_le ops : forall m x, In x (counts m ops) -> (m <= x <= m + length (items_of ops))%nat.
Proof.
  induction ops as [|[y|l|v|q] ops IH]; intros m x Hx; cbn [counts items_of] in *; try (now apply IH); [destruct Hx| |].
  - cbn [length]. destruct Hx as [<-|Hx]; [lia|]. apply IH in Hx. lia.
  - rewrite app_length. destruct Hx as [<-|Hx]; [lia|]. apply IH in Hx. lia.
Qed.
Lemma answers_mono s its (P Q : R -> R -> Prop) : (forall t x, P t x -> Q t x) -> answers s its P -> answers s its Q.
Proof.
  intros H [A B]. split.
  - intros v. destruct (A v) as (a & E & F). eauto.
  - intros cs last q H1 H2 H3 H4 H5. destruct (B cs last q H1 H2 H3 H4 H5) as (x & E & F). eauto.
Qed.

Section Uniform.
  Variables (cfg : tcfg xr) (k inv : xr -> xr -> xr -> xr) (cf : R) (lam : R -> R).
  Hypothesis HS : with_scale cfg k inv cf.
  Hypothesis Hmono : forall n n', 1 <= n -> n <= n' -> lam n <= lam n'.
  Hypothesis Hpos : forall n, 1 <= n -> 0 <= lam n.
  Hypothesis Hstep : forall n, 1 <= n -> step_width k inv cf n (lam n).
  Theorem td_drift_mono ops rs : items_of ops = map XFin rs -> rs <> [] ->
    whenever (fun r => answers (fst r) rs (within rs (INR (calls ops) * (Rmax 1 (lam (size rs) * size rs) - 1) + Rmax 1 (Rmax 1 (lam (size rs) * size rs) / 2))))
      (exec (t_digest cfg) td_new ops).
  Proof.
    intros Hits Hne. set (W := Rmax 1 (lam (size rs) * size rs)).
    assert (forall m, In m (counts 0 ops) -> lam (INR m) * INR m <= W) as HW.
    { intros m Hm. apply counts_le in Hm. rewrite Hits, map_length in Hm. destruct m as [|m].
      - cbn [INR]. pose proof (Rmax_l 1 (lam (size rs) * size rs)). unfold W. lra.
      - assert (1 <= INR (S m)) as H1 by (rewrite S_INR; pose proof (pos_INR m); lra). assert (INR (S m) <= size rs) as H2 by (apply le_INR; lia).
        eapply Rle_trans; [|apply Rmax_r]. pose proof (Hpos H1). pose proof (Hmono H1 H2). nra. }
    assert (1 <= W) as W1 by apply Rmax_l.
    eapply whenever_mono; [apply (@td_drift cfg k inv cf lam HS ops rs Hits Hne)|].
    - intros m _ Hm. apply Hstep. apply (le_INR 2) in Hm. cbn in Hm. lra.
    - intros r [_ H]. eapply answers_mono; [|exact H]. intros t x Hx. unfold within in *.
      pose proof (@heaviest_le lam W (counts 0 ops) 1 W1 HW) as B1. pose proof (@drift_le lam W (counts 0 ops) 1 W1 HW) as B2. rewrite counts_length in B2.
      assert (Rmax 1 (heaviest lam 1 (counts 0 ops) / 2) <= Rmax 1 (W / 2)) as B3 by (apply Rle_max_compat_l; lra). lra.
  Qed.
End Uniform.

Section PerScale.
  Variables (cfg : tcfg xr) (cf : R) (ops : list (op xr)) (rs : list R).
  Hypothesis Hc : 0 < cf.
  Hypothesis Hits : items_of ops = map XFin rs.
  Hypothesis Hne : rs <> [].
  (** each of the [b] insertion calls costs at most one less than the weight cap [W], the answer half of it *)
  Definition many (W : R) : R := INR (calls ops) * (Rmax 1 W - 1) + Rmax 1 (Rmax 1 W / 2).
  Notation runs L := (whenever (fun r => answers (fst r) rs (within rs (many (L * size rs)))) (exec (t_digest cfg) td_new ops)).
  Theorem drift_k0 : with_scale cfg k0 inv_k0 cf -> runs (2 / cf).
  Proof.
    intros H. refine (@td_drift_mono cfg _ _ cf (fun _ => 2 / cf) H _ _ _ ops rs Hits Hne); intros; [lra|apply Rlt_le, Rdiv_lt_0_compat; lra|]. now apply k0_width.
  Qed.
  Theorem drift_k1 : with_scale cfg k1 inv_k1 cf -> runs (PI / cf).
  Proof.
    intros H. refine (@td_drift_mono cfg _ _ cf (fun _ => PI / cf) H _ _ _ ops rs Hits Hne); intros; [lra|apply Rlt_le, Rdiv_lt_0_compat; [apply PI_RGT_0|lra]|]. now apply k1_width.
  Qed.
  Let ln4 : forall a, 0 < a -> 0 < ln 10 / a.
  Proof. intros a Ha. pose proof ln10_pos. apply Rdiv_lt_0_compat; lra. Qed.
  Theorem drift_k2 : with_scale cfg k2 inv_k2 cf -> 0 < den 24 cf 1 -> runs (ln 10 / 4 * (den 24 cf (size rs) / cf)).
  Proof.
    intros H Hd. refine (@td_drift_mono cfg _ _ cf (fun n => ln 10 / 4 * (den 24 cf n / cf)) H _ _ _ ops rs Hits Hne).
    - intros n n' H1 H2. apply (@den_frac 24 cf cf n n' Hc Hc H1 H2 Hd). apply ln4. lra.
    - intros n H1. apply (@den_frac 24 cf cf n n Hc Hc H1 (Rle_refl n) Hd). apply ln4. lra.
    - intros n H1. apply k2_width; [exact Hc|lra|]. pose proof (@den_mono 24 cf 1 n Hc (Rle_refl 1) H1). lra.
  Qed.
  Theorem drift_k3 : with_scale cfg k3 inv_k3 cf -> 0 < den 21 cf 1 -> runs (ln 10 / 2 * (den 21 cf (size rs) / cf)).
  Proof.
    intros H Hd. refine (@td_drift_mono cfg _ _ cf (fun n => ln 10 / 2 * (den 21 cf n / cf)) H _ _ _ ops rs Hits Hne).
    - intros n n' H1 H2. apply (@den_frac 21 cf cf n n' Hc Hc H1 H2 Hd). apply ln4. lra.
    - intros n H1. apply (@den_frac 21 cf cf n n Hc Hc H1 (Rle_refl n) Hd). apply ln4. lra.
    - intros n H1. apply k3_width; [exact Hc|lra|]. pose proof (@den_mono 21 cf 1 n Hc (Rle_refl 1) H1). lra.
  Qed.
  Theorem drift_k2_asym : with_scale cfg k2_asym inv_k2_asym cf -> 0 < den 24 (cf * 2) 1 -> runs (ln 10 / 4 * (den 24 (cf * 2) (size rs) / cf)).
  Proof.
    intros H Hd. assert (0 < cf * 2) as Hc2 by lra. refine (@td_drift_mono cfg _ _ cf (fun n => ln 10 / 4 * (den 24 (cf * 2) n / cf)) H _ _ _ ops rs Hits Hne).
    - intros n n' H1 H2. apply (@den_frac 24 (cf * 2) cf n n' Hc2 Hc H1 H2 Hd). apply ln4. lra.
    - intros n H1. apply (@den_frac 24 (cf * 2) cf n n Hc2 Hc H1 (Rle_refl n) Hd). apply ln4. lra.
    - intros n H1. apply k2_asym_width; [lra|exact Hc|]. pose proof (@den_mono 24 (cf * 2) 1 n Hc2 (Rle_refl 1) H1). lra.
  Qed.
End PerScale.

(** k2n: its steps need not grow with the number of items *)
Definition k2n_lam (cf n : R) : R := ln 10 / 4 * (den 24 (cfn cf n) n / cfn cf n).
Theorem drift_k2n cfg cf ops rs : items_of ops = map XFin rs -> rs <> [] -> with_scale cfg k2n inv_k2n cf ->
  (forall m, In m (counts 0 ops) -> (2 <= m)%nat -> 0 < cfn cf (INR m) /\ 0 < den 24 (cfn cf (INR m)) (INR m)) ->
  whenever (fun r => (exists cs, listed (fst r) cs /\ forall c, In c cs -> snd c <= heaviest (k2n_lam cf) 1 (counts 0 ops)) /\
                     answers (fst r) rs (within rs (drift (k2n_lam cf) 1 (counts 0 ops) + Rmax 1 (heaviest (k2n_lam cf) 1 (counts 0 ops) / 2))))
    (exec (t_digest cfg) td_new ops).
Proof.
  intros Hits Hne HS H. refine (@td_drift cfg _ _ cf (k2n_lam cf) HS ops rs Hits Hne _). intros m Hm H2. destruct (H m Hm H2) as [A B].
  apply k2n_width; [|exact A|exact B]. apply (le_INR 2) in H2. cbn in H2. lra.
Qed.

(** the two kinds of query apart *)
Lemma ask_q {A} (P : tdigest xr * A -> R -> R -> Prop) (rs : list R) (m : M (tdigest xr * A)) :
  whenever (fun r => answers (fst r) rs (P r)) m -> whenever (fun r => q_answers (fst r) rs (P r)) m.
Proof. intros H. eapply whenever_mono; [exact H|]. now intros r [H1 _]. Qed.
Lemma ask_v {A} (P : tdigest xr * A -> R -> R -> Prop) (rs : list R) (m : M (tdigest xr * A)) :
  whenever (fun r => answers (fst r) rs (P r)) m -> whenever (fun r => v_answers (fst r) rs (P r)) m.
Proof. intros H. eapply whenever_mono; [exact H|]. now intros r [_ H2]. Qed.
Lemma proj1_always {A} (P Q : A -> Prop) (m : M A) : whenever (fun r => P r /\ Q r) m -> whenever P m.
Proof. intros H. eapply whenever_mono; [exact H|]. now intros r [H1 _]. Qed.
Lemma proj2_always {A} (P Q : A -> Prop) (m : M A) : whenever (fun r => P r /\ Q r) m -> whenever Q m.
Proof. intros H. eapply whenever_mono; [exact H|]. now intros r [_ H2]. Qed.
Lemma terms lam ops m m' W :
  many ops W = INR (calls ops) * (Rmax 1 W - 1) + Rmax 1 (Rmax 1 W / 2) /\
  heaviest lam 1 [m; m'] = Rmax (Rmax 1 (lam (INR m) * INR m)) (lam (INR m') * INR m') /\
  drift lam 1 [m; m'] = (Rmax 1 (lam (INR m) * INR m) - 1) + (Rmax (Rmax 1 (lam (INR m) * INR m)) (lam (INR m') * INR m') - 1).
Proof. split; [reflexivity|]. split; [reflexivity|]. cbn [drift]. ring. Qed.
