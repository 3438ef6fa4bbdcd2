(** The t-digest in exact arithmetic: mass, order, range of the centroids and of the answers. *)
From Coq Require Import List Arith ZArith Lia Bool Permutation Sorted Reals Lra.
From Flocq Require Import Core.
From Verif Require Import Base Floats XReal Digest TDigest Spec FloatFacts History TDigestProofs TDigestProofs2.
Set Implicit Arguments.
Local Open Scope R_scope.

(* ------------------------------------------------------------------ *)
(** ** Comparisons and operations on finite exact numbers *)
Lemma xle_b a b : fle (XFin a) (XFin b) = true <-> a <= b.
Proof. unfold fle; cbn. destruct (Rcompare_spec a b); split; intros; try lra; auto; discriminate. Qed.
Lemma xlt_b a b : flt (XFin a) (XFin b) = true <-> a < b.
Proof. unfold flt; cbn. destruct (Rcompare_spec a b); split; intros; try lra; auto; discriminate. Qed.
Lemma xgt_b a b : fgt (XFin a) (XFin b) = true <-> a > b.
Proof. unfold fgt; cbn. destruct (Rcompare_spec a b); split; intros; try lra; auto; discriminate. Qed.
Lemma xeq_b a b : feq (XFin a) (XFin b) = true <-> a = b.
Proof. unfold feq; cbn. destruct (Rcompare_spec a b); split; intros; try lra; auto; discriminate. Qed.
Lemma xle_f a b : fle (XFin a) (XFin b) = false <-> b < a.
Proof. unfold fle; cbn. destruct (Rcompare_spec a b); split; intros; try lra; auto; discriminate. Qed.
Lemma xlt_f a b : flt (XFin a) (XFin b) = false <-> b <= a.
Proof. unfold flt; cbn. destruct (Rcompare_spec a b); split; intros; try lra; auto; discriminate. Qed.
Lemma xgt_f a b : fgt (XFin a) (XFin b) = false <-> a <= b.
Proof. unfold fgt; cbn. destruct (Rcompare_spec a b); split; intros; try lra; auto; discriminate. Qed.
Lemma xeq_f a b : feq (XFin a) (XFin b) = false <-> a <> b.
Proof. unfold feq; cbn. destruct (Rcompare_spec a b); split; intros; try lra; auto; discriminate. Qed.
Lemma xnn a : fisnan (XFin a) = false.
Proof. unfold fisnan; cbn. destruct (Rcompare_spec a a); auto. Qed.
Lemma xmin_fin a b : fmin (XFin a) (XFin b) = XFin (Rmin a b).
Proof.
  unfold fmin. rewrite !xnn. destruct (flt (XFin b) (XFin a)) eqn:E; f_equal.
  - apply xlt_b in E. rewrite Rmin_right; lra.
  - apply xlt_f in E. rewrite Rmin_left; lra.
Qed.
Lemma xmax_fin a b : fmax (XFin a) (XFin b) = XFin (Rmax a b).
Proof.
  unfold fmax. rewrite !xnn. destruct (flt (XFin a) (XFin b)) eqn:E; f_equal.
  - apply xlt_b in E. rewrite Rmax_right; lra.
  - apply xlt_f in E. rewrite Rmax_left; lra.
Qed.
Lemma xmin_inf a : fmin (XInf false) (XFin a) = XFin a.
Proof. unfold fmin. now rewrite xnn. Qed.
Lemma xmax_inf a : fmax (XInf true) (XFin a) = XFin a.
Proof. unfold fmax. now rewrite xnn. Qed.
Lemma xadd_fin a b : fadd (XFin a) (XFin b) = XFin (a + b). Proof. reflexivity. Qed.
Lemma xmul_fin a b : fmul (XFin a) (XFin b) = XFin (a * b). Proof. reflexivity. Qed.
Lemma xsub_fin a b : fsub (XFin a) (XFin b) = XFin (a - b). Proof. reflexivity. Qed.
Lemma xdiv_fin a b : b <> 0 -> fdiv (XFin a) (XFin b) = XFin (a / b).
Proof. intros H. cbn. unfold rsign. destruct (Rcompare_spec b 0); auto. lra. Qed.
Lemma xf0 : f0 = XFin 0. Proof. reflexivity. Qed.
Lemma xf1 : f1 = XFin 1. Proof. reflexivity. Qed.
Lemma xf2 : f2 = XFin 2. Proof. reflexivity. Qed.
Lemma xfhalf : fhalf = XFin (1 / 2). Proof. reflexivity. Qed.

(* ------------------------------------------------------------------ *)
(** ** Centroids as pairs of reals *)
Definition rcen : Type := R * R.
Definition emb (c : rcen) : centroid xr := Cen (XFin (fst c)) (XFin (snd c)).
Definition Wt (g : list rcen) : R := sumR (map snd g).
Definition Sm (g : list rcen) : R := sumR (map (fun c => fst c * snd c) g).
Definition ravg (g : list rcen) : rcen := (Sm g / Wt g, Wt g).
Definition posint (w : R) : Prop := exists z, (1 <= z)%Z /\ w = IZR z.
Definition heavy (c : rcen) : Prop := posint (snd c).

Lemma sumR_app l1 l2 : sumR (l1 ++ l2) = sumR l1 + sumR l2.
Proof. unfold sumR. induction l1 as [|a l IH]; cbn [app fold_right]; [lra|]. rewrite IH. lra. Qed.
Lemma sumR_perm l1 l2 : Permutation l1 l2 -> sumR l1 = sumR l2.
Proof. induction 1; cbn in *; unfold sumR in *; cbn in *; lra. Qed.
Lemma Wt_app a b : Wt (a ++ b) = Wt a + Wt b.
Proof. unfold Wt. now rewrite map_app, sumR_app. Qed.
Lemma Sm_app a b : Sm (a ++ b) = Sm a + Sm b.
Proof. unfold Sm. now rewrite map_app, sumR_app. Qed.
Lemma Wt_cons c b : Wt (c :: b) = snd c + Wt b. Proof. reflexivity. Qed.
Lemma Sm_cons c b : Sm (c :: b) = fst c * snd c + Sm b. Proof. reflexivity. Qed.
Lemma Wt_perm a b : Permutation a b -> Wt a = Wt b.
Proof. intros H. apply sumR_perm. now apply Permutation_map. Qed.
Lemma Sm_perm a b : Permutation a b -> Sm a = Sm b.
Proof. intros H. apply sumR_perm. now apply Permutation_map. Qed.

Lemma posint_1 : posint 1. Proof. exists 1%Z. split; [lia|reflexivity]. Qed.
Lemma posint_ge w : posint w -> 1 <= w. Proof. intros (z & H & ->). now apply IZR_le. Qed.
Lemma posint_add a b : posint a -> posint b -> posint (a + b).
Proof. intros (x & H & ->) (y & H' & ->). exists (x + y)%Z. split; [lia|]. now rewrite plus_IZR. Qed.
Lemma Wt_ge g : Forall heavy g -> INR (length g) <= Wt g.
Proof.
  induction 1 as [|c g Hc H IH]; [cbn; lra|]. rewrite Wt_cons. cbn [length]. rewrite S_INR.
  apply posint_ge in Hc. lra.
Qed.
Lemma Wt_posint g : Forall heavy g -> g <> [] -> posint (Wt g).
Proof.
  induction 1 as [|c g Hc H IH]; [congruence|]. intros _. rewrite Wt_cons.
  destruct g as [|d g]; [unfold Wt; cbn; rewrite Rplus_0_r; exact Hc|].
  apply posint_add; auto. apply IH. discriminate.
Qed.
Lemma Wt_nonneg g : Forall heavy g -> 0 <= Wt g.
Proof. intros H. apply Wt_ge in H. pose proof (pos_INR (length g)). lra. Qed.

Lemma Sm_between g a b : Forall heavy g -> Forall (fun c => a <= fst c <= b) g -> a * Wt g <= Sm g <= b * Wt g.
Proof.
  induction 1 as [|c g Hc H IH]; intros HB.
  - unfold Wt, Sm; cbn. lra.
  - inversion HB; subst. specialize (IH ltac:(assumption)). rewrite Wt_cons, Sm_cons. apply posint_ge in Hc. nra.
Qed.
Lemma div_between a b s w : 0 < w -> a * w <= s <= b * w -> a <= s / w <= b.
Proof.
  intros Hw H. split.
  - apply Rmult_le_reg_r with w; auto. replace (s / w * w) with s by (field; lra). lra.
  - apply Rmult_le_reg_r with w; auto. replace (s / w * w) with s by (field; lra). lra.
Qed.
Lemma ravg_between g a b : Forall heavy g -> g <> [] -> Forall (fun c => a <= fst c <= b) g -> a <= fst (ravg g) <= b.
Proof.
  intros H Hne HB. cbn [ravg fst]. apply div_between; [|now apply Sm_between].
  pose proof (posint_ge (Wt_posint H Hne)). lra.
Qed.

Lemma agg_emb g : Forall heavy g -> g <> [] -> agg (map emb g) = emb (ravg g).
Proof.
  intros H Hne. pose proof (posint_ge (Wt_posint H Hne)) as HW. unfold agg, ravg.
  assert (agg_w (map emb g) = XFin (Wt g) /\ agg_s (map emb g) = XFin (Sm g)) as [-> ->].
  { destruct g as [|c g]; [congruence|]. clear. cbn [map agg_w agg_s emb mean weight]. rewrite xmul_fin, Wt_cons, Sm_cons. split.
    - generalize (snd c) as a. induction g as [|d g IH]; intros a; cbn [map fold_left emb weight].
      + unfold Wt; cbn. f_equal. lra.
      + rewrite xadd_fin, IH, Wt_cons. f_equal. lra.
    - generalize (fst c * snd c) as a. induction g as [|d g IH]; intros a; cbn [map fold_left emb weight mean].
      + unfold Sm; cbn. f_equal. lra.
      + rewrite xmul_fin, xadd_fin, IH, Sm_cons. f_equal. lra. }
  rewrite xdiv_fin by lra. reflexivity.
Qed.

Lemma sum_weights_emb g : sum_weights (map emb g) = XFin (Wt g).
Proof.
  unfold sum_weights. cbn [fsum64 xr_ops]. rewrite map_map. cbn [emb weight].
  assert (forall a, fold_left xadd (map (fun c : rcen => XFin (snd c)) g) (XFin a) = XFin (a + Wt g)) as H.
  { induction g as [|c g IH]; intros a; cbn [map fold_left]; [unfold Wt; cbn; f_equal; lra|].
    cbn [xadd]. rewrite IH, Wt_cons. f_equal. lra. }
  rewrite H. f_equal. lra.
Qed.

Lemma emb_inj l l' : map emb l = map emb l' -> l = l'.
Proof.
  revert l'; induction l as [|[a b] l IH]; intros [|[c d] l'] H; try discriminate; auto.
  injection H as -> -> H. f_equal. auto.
Qed.

Lemma concat_emb gs : forall l, concat gs = map emb l -> exists rs, gs = map (map emb) rs /\ concat rs = l.
Proof.
  induction gs as [|g gs IH]; intros l H; cbn [concat] in H.
  - destruct l; [|discriminate]. exists []. auto.
  - assert (exists l1 l2, l = l1 ++ l2 /\ g = map emb l1 /\ concat gs = map emb l2) as (l1 & l2 & -> & -> & H2).
    { clear IH. revert l H. induction g as [|c g IH]; intros l H; cbn [app] in H.
      - exists [], l. auto.
      - destruct l as [|d l]; [discriminate|]. injection H as -> H. destruct (IH _ H) as (l1 & l2 & -> & -> & H').
        exists (d :: l1), l2. auto. }
    destruct (IH _ H2) as (rs & -> & <-). exists (l1 :: rs). auto.
Qed.

(* ------------------------------------------------------------------ *)
(** ** The invariant of a digest fed with the numbers [its] *)
Definition rsorted (cs : list rcen) : Prop := StronglySorted (fun a b => fst a <= fst b) cs.

Record tinv (s : tdigest xr) (its : list R) (cs : list rcen) (lo hi : R) : Prop := {
  ti_cs : t_centroids s = map emb cs;
  ti_ne : cs <> [];
  ti_heavy : Forall heavy cs;
  ti_sorted : rsorted cs;
  ti_sum : Sm cs = sumR its;
  ti_wt : Wt cs = INR (length its);
  ti_min : t_min s = XFin lo;
  ti_max : t_max s = XFin hi;
  ti_lo : In lo its /\ forall x, In x its -> lo <= x;
  ti_hi : In hi its /\ forall x, In x its -> x <= hi;
  ti_rng : Forall (fun c => lo <= fst c <= hi) cs;
}.

(** what the queries depend on *)
Record tview (s : tdigest xr) (cs : list rcen) (lo hi : R) : Prop := {
  tv_cs : t_centroids s = map emb cs;
  tv_ne : cs <> [];
  tv_heavy : Forall heavy cs;
  tv_sorted : rsorted cs;
  tv_min : t_min s = XFin lo;
  tv_max : t_max s = XFin hi;
  tv_rng : Forall (fun c => lo <= fst c <= hi) cs;
}.
Lemma tinv_view s its cs lo hi : tinv s its cs lo hi -> tview s cs lo hi.
Proof. intros []. constructor; assumption. Qed.
Coercion tinv_view : tinv >-> tview.

Definition texact (s : tdigest xr) (its : list R) : Prop :=
  (its = [] /\ t_centroids s = [] /\ t_min s = XInf false /\ t_max s = XInf true) \/
  (its <> [] /\ exists cs lo hi, tinv s its cs lo hi).

Lemma heavy_concat rs : Forall heavy (concat rs) -> Forall (Forall heavy) rs.
Proof. induction rs as [|g rs IH]; cbn; intros H; [constructor|]. apply Forall_app in H as [H1 H2]. constructor; auto. Qed.

Lemma ravg_sums rs : Forall (Forall heavy) rs -> Forall (fun g => g <> []) rs ->
  Wt (map ravg rs) = Wt (concat rs) /\ Sm (map ravg rs) = Sm (concat rs) /\ Forall heavy (map ravg rs).
Proof.
  induction 1 as [|g rs Hg H IH]; intros Hne; [repeat split; constructor|].
  inversion Hne; subst. destruct IH as (A & B & C); auto. pose proof (posint_ge (Wt_posint Hg ltac:(assumption))).
  cbn [map concat]. rewrite Wt_cons, Sm_cons, Wt_app, Sm_app, A, B. cbn [ravg fst snd].
  split; [auto|]. split; [field; lra|]. constructor; auto. now apply Wt_posint.
Qed.

Lemma rsorted_app a b : rsorted (a ++ b) -> rsorted a /\ rsorted b /\ forall x y, In x a -> In y b -> fst x <= fst y.
Proof.
  induction a as [|c a IH]; cbn; intros H.
  - split; [constructor|]. split; auto. intros x y [].
  - apply StronglySorted_inv in H as [H1 H2]. destruct (IH H1) as (A & B & C). apply Forall_app in H2 as [D E].
    split; [constructor; auto|]. split; auto. intros x y [<-|Hx] Hy; [|now apply C]. rewrite Forall_forall in E. auto.
Qed.

Lemma ravg_le g b : Forall heavy g -> g <> [] -> (forall c, In c g -> fst c <= b) -> fst (ravg g) <= b.
Proof.
  intros H Hne HB. assert (exists a, Forall (fun c => a <= fst c <= b) g) as [a Ha].
  { clear H Hne. induction g as [|c g IH]; [exists 0; constructor|]. destruct IH as [a Ha]; [intros; apply HB; now right|].
    exists (Rmin a (fst c)). pose proof (Rmin_l a (fst c)). pose proof (Rmin_r a (fst c)). constructor; [split; [lra|apply HB; now left]|].
    eapply Forall_impl; [|exact Ha]. cbn. intros; lra. }
  apply (ravg_between H Hne Ha).
Qed.
Lemma ravg_ge g a : Forall heavy g -> g <> [] -> (forall c, In c g -> a <= fst c) -> a <= fst (ravg g).
Proof.
  intros H Hne HB. assert (exists b, Forall (fun c => a <= fst c <= b) g) as [b Hb].
  { clear H Hne. induction g as [|c g IH]; [exists 0; constructor|]. destruct IH as [b Hb]; [intros; apply HB; now right|].
    exists (Rmax b (fst c)). pose proof (Rmax_l b (fst c)). pose proof (Rmax_r b (fst c)). constructor; [split; [apply HB; now left|lra]|].
    eapply Forall_impl; [|exact Hb]. cbn. intros; lra. }
  apply (ravg_between H Hne Hb).
Qed.

Lemma ravg_sorted rs : Forall (Forall heavy) rs -> Forall (fun g => g <> []) rs -> rsorted (concat rs) -> rsorted (map ravg rs).
Proof.
  induction 1 as [|g rs Hg H IH]; intros Hne Hs; [constructor|].
  inversion Hne; subst. cbn [concat map] in *. apply rsorted_app in Hs as (A & B & C).
  constructor; [now apply IH|]. apply Forall_forall. intros y Hy. apply in_map_iff in Hy as (g' & <- & Hg').
  rewrite Forall_forall in H, H3.
  apply ravg_le; auto. intros c Hc. apply ravg_ge; auto.
  intros d Hd. apply C; auto. apply in_concat. eauto.
Qed.

Lemma sorted_head_le cs a : rsorted (a :: cs) -> forall c, In c (a :: cs) -> fst a <= fst c.
Proof. intros H c [<-|Hc]; [lra|]. apply StronglySorted_inv in H as [_ H]. rewrite Forall_forall in H. auto. Qed.
Lemma sorted_last_ge cs a : rsorted (cs ++ [a]) -> forall c, In c (cs ++ [a]) -> fst c <= fst a.
Proof. intros H c Hc. apply in_app_or in Hc as [Hc|[<-|[]]]; [|lra]. apply rsorted_app in H as (_ & _ & H). apply H; auto. now left. Qed.

Lemma sorted_emb l : StronglySorted (fun a b => fle (mean a) (mean b) = true) (map emb l) -> rsorted l.
Proof.
  induction l as [|c l IH]; cbn [map]; intros H; [constructor|]. apply StronglySorted_inv in H as [H1 H2].
  constructor; [now apply IH|]. rewrite Forall_map in H2. eapply Forall_impl; [|exact H2]. cbn [emb mean]. intros d Hd. now apply xle_b.
Qed.

Lemma perm_emb l l' : Permutation l (map emb l') -> exists l2, l = map emb l2 /\ Permutation l2 l'.
Proof. intros H. apply Permutation_map_inv in H as (l2 & -> & H). exists l2. split; auto. now symmetry. Qed.

Section Exact.
  Variable cfg : tcfg xr.
  Hypothesis Hlib : lib_ok cfg.

  (** one merge: the state [s] of centroids [cs] receives the centroids [buf] *)
  Lemma merge_exact s cs buf : t_centroids s = map emb cs -> Forall heavy cs -> Forall heavy buf -> buf ++ cs <> [] ->
    exists sorted rs first lst,
      Permutation sorted (buf ++ cs) /\ rsorted sorted /\ concat rs = sorted /\ Forall (Forall heavy) rs /\ Forall (fun g => g <> []) rs /\
      head sorted = Some first /\ last_error sorted = Some lst /\
      merges cfg (XFin (Wt (buf ++ cs))) f0 (w_limit cfg (XFin (Wt (buf ++ cs))) f0) (map (map emb) rs) /\
      add_centroid_buffer cfg s (map emb buf) =
        Ret {| t_centroids := map emb (map ravg rs); t_min := fmin (t_min s) (XFin (fst first)); t_max := fmax (t_max s) (XFin (fst lst));
               t_tick := S (t_tick s) |}.
  Proof.
    intros Hcs Hh Hb Hne.
    assert (map emb buf ++ t_centroids s = map emb (buf ++ cs)) as Eb by (rewrite Hcs; now rewrite map_app).
    destruct (@add_centroid_buffer_spec xr xr_ops cfg Hlib s (map emb buf)) as (sorted & gs & first & lst & A1 & A2 & A3 & A4 & A5 & A6 & ->).
    { rewrite Eb. intros E. apply map_eq_nil in E. congruence. }
    { right. rewrite Eb. apply Forall_map. apply Forall_forall. intros c _. apply xnn. }
    rewrite Eb in A1. apply perm_emb in A1 as (sr & -> & HP).
    destruct (concat_emb _ _ A6) as (rs & -> & E2).
    assert (Forall heavy (concat rs)) as Hall.
    { rewrite E2. eapply Permutation_Forall; [symmetry; exact HP|]. apply Forall_app; auto. }
    apply heavy_concat in Hall as Hall'.
    assert (Forall (fun g => g <> []) rs) as Hrne.
    { apply merges_ne in A5 as [_ A5]. rewrite Forall_map in A5. eapply Forall_impl; [|exact A5]. intros g Hg E. apply Hg. now rewrite E. }
    assert (exists f, head sr = Some f /\ first = emb f) as (f & Ef & ->).
    { destruct sr as [|f sr]; [discriminate|]. injection A3 as <-. exists f. auto. }
    assert (exists l, last_error sr = Some l /\ lst = emb l) as (l & El & ->).
    { apply last_error_split in A4 as (l' & E). apply map_eq_app in E as (s1 & s2 & -> & <- & E).
      destruct s2 as [|l [|? ?]]; try discriminate. injection E as <-. exists l. split; auto. apply last_error_app. }
    exists sr, rs, f, l. split; [auto|]. split.
    { apply sorted_emb, A2. apply Forall_map. apply Forall_forall. intros c _. apply xnn. }
    split; [auto|]. split; [auto|]. split; [auto|]. split; [auto|]. split; [auto|]. split.
    { rewrite sum_weights_emb, (Wt_perm HP) in A5. exact A5. }
    f_equal. f_equal. rewrite !map_map. apply map_ext_in. intros g Hg. rewrite Forall_forall in Hall', Hrne. apply agg_emb; auto.
  Qed.

  Definition ucen (x : R) : rcen := (x, 1).
  Lemma ucen_heavy l : Forall heavy (map ucen l).
  Proof. apply Forall_map, Forall_forall. intros x _. apply posint_1. Qed.
  Lemma ucen_sums l : Wt (map ucen l) = INR (length l) /\ Sm (map ucen l) = sumR l.
  Proof.
    induction l as [|x l [A B]]; [split; reflexivity|]. cbn [map]. rewrite Wt_cons, Sm_cons, A, B. cbn [ucen fst snd length sumR fold_right].
    fold (sumR l). rewrite S_INR. lra.
  Qed.

  Lemma add_exact s its l : texact s its -> l <> [] ->
    exists s', add_centroid_buffer cfg s (map emb (map ucen l)) = Ret s' /\ texact s' (its ++ l).
  Proof.
    intros HI Hl.
    assert (exists cs, t_centroids s = map emb cs /\ Forall heavy cs /\ Wt cs = INR (length its) /\ Sm cs = sumR its) as (cs & C1 & C2 & C3 & C4).
    { destruct HI as [(-> & E & _)|(_ & cs & lo & hi & [])]; [exists []; auto|exists cs; auto]. }
    destruct (@merge_exact s cs (map ucen l) C1 C2 (ucen_heavy l)) as (sr & rs & f & e & A1 & A2 & A3 & A4 & A5 & A6 & A7 & A8 & ->).
    { destruct l; [congruence|discriminate]. }
    eexists. split; [reflexivity|]. right. split; [now destruct its; destruct l|].
    destruct (ravg_sums A4 A5) as (W1 & W2 & W3). rewrite A3 in W1, W2.
    destruct (ucen_sums l) as [U1 U2].
    assert (forall c, In c sr -> fst f <= fst c) as Hf.
    { destruct sr as [|f' sr]; [discriminate|]. injection A6 as ->. now apply sorted_head_le. }
    assert (forall c, In c sr -> fst c <= fst e) as He.
    { destruct (last_error_split _ A7) as (s0 & ->). now apply sorted_last_ge. }
    assert (In f sr) as Hfin by now apply head_In.
    assert (In e sr) as Hein by now apply last_error_In.
    assert (forall x, In x l -> In (ucen x) sr) as Hin.
    { intros x Hx. eapply Permutation_in; [symmetry; exact A1|]. apply in_or_app. left. now apply in_map. }
    assert (forall c, In c sr -> (exists x, In x l /\ c = ucen x) \/ In c cs) as Hin'.
    { intros c Hc. eapply Permutation_in in Hc; [|exact A1]. apply in_app_or in Hc as [Hc|Hc]; auto.
      apply in_map_iff in Hc as (x & <- & Hx). left. eauto. }
    assert (forall lo hi, (forall c, In c sr -> lo <= fst c <= hi) -> Forall (fun c => lo <= fst c <= hi) (map ravg rs)) as Hrng.
    { intros lo hi H. apply Forall_map, Forall_forall. intros g Hg.
      rewrite Forall_forall in A4, A5.
      apply ravg_between; auto. apply Forall_forall. intros c Hc. apply H. rewrite <- A3. apply in_concat; eauto. }
    destruct HI as [(-> & E1 & E2 & E3)|(Hne & cs' & lo & hi & I)].
    - exists (map ravg rs), (fst f), (fst e). rewrite C1 in E1. apply map_eq_nil in E1. subst cs.
      rewrite app_nil_r in *.
      constructor; cbn [t_centroids t_min t_max app]; auto.
      + intros E. apply map_eq_nil in E. subst rs. cbn in A3. subst sr. destruct Hfin.
      + apply ravg_sorted; auto. now rewrite A3.
      + rewrite W2, (Sm_perm A1). auto.
      + rewrite W1, (Wt_perm A1). auto.
      + rewrite E2. apply xmin_inf.
      + rewrite E3. apply xmax_inf.
      + split.
        * destruct (Hin' f Hfin) as [(x & Hx & ->)|[]]. exact Hx.
        * intros x Hx. apply (Hf (ucen x)). auto.
      + split.
        * destruct (Hin' e Hein) as [(x & Hx & ->)|[]]. exact Hx.
        * intros x Hx. apply (He (ucen x)). auto.
    - assert (cs' = cs) as -> by (apply emb_inj; rewrite <- (ti_cs I); auto).
      pose proof (ti_rng I) as Rg. rewrite Forall_forall in Rg.
      destruct (ti_lo I) as [L1 L2]. destruct (ti_hi I) as [H1 H2].
      exists (map ravg rs), (Rmin lo (fst f)), (Rmax hi (fst e)).
      constructor; cbn [t_centroids t_min t_max]; auto.
      + intros E. apply map_eq_nil in E. subst rs. cbn in A3. subst sr. destruct Hfin.
      + apply ravg_sorted; auto. now rewrite A3.
      + rewrite W2, (Sm_perm A1), Sm_app, sumR_app. lra.
      + rewrite W1, (Wt_perm A1), Wt_app, app_length, plus_INR. lra.
      + rewrite (ti_min I). apply xmin_fin.
      + rewrite (ti_max I). apply xmax_fin.
      + split.
        * destruct (Hin' f Hfin) as [(x & Hx & ->)|Hc].
          -- cbn [ucen fst]. unfold Rmin. destruct (Rle_dec lo x); apply in_or_app; auto.
          -- specialize (Rg _ Hc). rewrite Rmin_left by lra. apply in_or_app; auto.
        * intros x Hx. apply in_app_or in Hx as [Hx|Hx].
          -- specialize (L2 _ Hx). pose proof (Rmin_l lo (fst f)). lra.
          -- pose proof (Hf _ (Hin _ Hx)) as HH. cbn [ucen fst] in HH. pose proof (Rmin_r lo (fst f)). lra.
      + split.
        * destruct (Hin' e Hein) as [(x & Hx & ->)|Hc].
          -- cbn [ucen fst]. unfold Rmax. destruct (Rle_dec hi x); apply in_or_app; auto.
          -- specialize (Rg _ Hc). rewrite Rmax_left by lra. apply in_or_app; auto.
        * intros x Hx. apply in_app_or in Hx as [Hx|Hx].
          -- specialize (H2 _ Hx). pose proof (Rmax_l hi (fst e)). lra.
          -- pose proof (He _ (Hin _ Hx)) as HH. cbn [ucen fst] in HH. pose proof (Rmax_r hi (fst e)). lra.
      + apply Hrng. intros c Hc. split.
        * pose proof (Hf _ Hc). pose proof (Rmin_r lo (fst f)). lra.
        * pose proof (He _ Hc). pose proof (Rmax_r hi (fst e)). lra.
  Qed.

  Lemma units_emb l : map (@unit_cen xr xr_ops) (map XFin l) = map emb (map ucen l).
  Proof. rewrite !map_map. apply map_ext. reflexivity. Qed.

  (** an empty buffer still merges the centroids again *)
  Lemma remerge_exact s its : texact s its -> exists s', add_centroid_buffer cfg s [] = Ret s' /\ texact s' its.
  Proof.
    intros [(-> & E1 & E2)|(Hne & cs & lo & hi & I)].
    - exists s. rewrite add_centroid_buffer_nil by now rewrite E1. split; auto. left; auto.
    - destruct (@merge_exact s cs [] (ti_cs I) (ti_heavy I)) as (sr & rs & f & e & A1 & A2 & A3 & A4 & A5 & A6 & A7 & A8 & E); [constructor|apply (ti_ne I)|].
      cbn [map] in E. rewrite E.
      eexists. split; [reflexivity|]. right. split; auto. cbn [app] in A1.
      destruct (ravg_sums A4 A5) as (W1 & W2 & W3). rewrite A3 in W1, W2.
      pose proof (ti_rng I) as Rg. rewrite Forall_forall in Rg.
      assert (In f sr) as Hfin by now apply head_In.
      assert (In e sr) as Hein by now apply last_error_In.
      assert (forall c, In c sr -> lo <= fst c <= hi) as Rg'.
      { intros c Hc. apply Rg. eapply Permutation_in; [exact A1|auto]. }
      exists (map ravg rs), lo, hi.
      constructor; cbn [t_centroids t_min t_max]; auto; try apply I.
      + intros E'. apply map_eq_nil in E'. subst rs. cbn in A3. subst sr. destruct Hfin.
      + apply ravg_sorted; auto. now rewrite A3.
      + rewrite W2, (Sm_perm A1). apply (ti_sum I).
      + rewrite W1, (Wt_perm A1). apply (ti_wt I).
      + rewrite (ti_min I), xmin_fin. f_equal. apply Rmin_left. apply Rg'. auto.
      + rewrite (ti_max I), xmax_fin. f_equal. apply Rmax_left. apply Rg'. auto.
      + apply Forall_map, Forall_forall. intros g Hg. rewrite Forall_forall in A4, A5.
        apply ravg_between; auto. apply Forall_forall. intros c Hc. apply Rg'. rewrite <- A3. apply in_concat; eauto.
  Qed.

  Lemma add_buffer_exact s its l : texact s its -> exists s', td_add_buffer cfg s (map XFin l) = Ret s' /\ texact s' (its ++ l).
  Proof.
    intros H. unfold td_add_buffer. rewrite units_emb. destruct l as [|x l].
    - rewrite app_nil_r. now apply remerge_exact.
    - apply add_exact; auto. discriminate.
  Qed.
  Lemma add_one_exact s its x : texact s its -> exists s', td_add cfg s (XFin x) = Ret s' /\ texact s' (its ++ [x]).
  Proof. intros H. unfold td_add. change [unit_cen (XFin x)] with (map emb (map ucen [x])). apply add_exact; auto. discriminate. Qed.
End Exact.
