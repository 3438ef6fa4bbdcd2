(** KeyedSumTree: prefix sums (without deletions) and nearest keys. *)
From Coq Require Import List Arith ZArith Lia Bool Permutation Sorted Reals Lra.
From Flocq Require Import Core.
From Verif Require Import Base Floats XReal Digest TDigest KeyedSumTree Spec FloatFacts TDigestProofs TDigestExact TDigestCluster KeyedSumProofs.
Set Implicit Arguments.
Local Open Scope R_scope.

(* ------------------------------------------------------------------ *)
(** * Prefix sums *)
Section Sums.
  Context {F : Type} {FO : FloatOps F} {FL : FloatLaws F}.
  Notation cen := (centroid F).

  (** the value of a weight *)
  Definition wr (c : cen) : R := match fval (weight c) with XFin r => r | _ => 0 end.
  Definition SW (l : list cen) : R := sumR (map wr l).
  Lemma SW_app a b : SW (a ++ b) = SW a + SW b.
  Proof. unfold SW. now rewrite map_app, sumR_app. Qed.
  Lemma SW_perm a b : Permutation a b -> SW a = SW b.
  Proof. intros H. apply sumR_perm. now apply Permutation_map. Qed.
  Lemma SW_cons c l : SW (c :: l) = wr c + SW l.
  Proof. reflexivity. Qed.

  (** collections whose partial sums are computed exactly *)
  Variable P : list cen -> Prop.
  Hypothesis P_perm : forall l l', Permutation l l' -> P l -> P l'.
  Hypothesis P_app : forall a b, P (a ++ b) -> P a.
  Hypothesis P_one : forall c, P [c] -> fval (weight c) = XFin (wr c).
  Hypothesis P_add : forall x y a b, P (a ++ b) -> fval x = XFin (SW a) -> fval y = XFin (SW b) -> fval (fadd x y) = XFin (SW a + SW b).

  Lemma P_app_r a b : P (a ++ b) -> P b.
  Proof. intros H. apply (P_app b a). eapply P_perm; [apply Permutation_app_comm|exact H]. Qed.
  Lemma P_in c l : P l -> In c l -> fval (weight c) = XFin (SW [c]).
  Proof.
    intros H Hi. apply in_split in Hi as (a & b & ->). apply P_app_r in H. change (c :: b) with ([c] ++ b) in H. apply P_app, P_one in H.
    rewrite H. unfold SW. cbn [map sumR fold_right]. apply f_equal. lra.
  Qed.

  Fixpoint sums (t : tree F) : Prop :=
    match t with Leaf => True | Node k w s l r => fval s = XFin (SW (node_vec t)) /\ sums l /\ sums r end.

  Lemma insert_sums t : forall k w t', asc (node_vec t) -> sums t -> P (Cen k w :: node_vec t) -> node_insert t k w = Ret t' -> sums t'.
  Proof.
    induction t as [|k0 w0 s0 l IHl r IHr]; intros k w t' HA HS HP HE.
    - cbn [node_insert] in HE. injection HE as <-. cbn [sums node_new node_vec app]. split; [|split; exact I].
      apply (@P_in (Cen k w) _ HP). left; auto.
    - destruct HS as (S0 & Sl & Sr). pose proof HA as HA0. cbn [node_vec] in HA. apply asc_mid in HA as (Al & Ar & _ & _).
      assert (Permutation (Cen k w :: node_vec (Node k0 w0 s0 l r)) (node_vec (Node k0 w0 s0 l r) ++ [Cen k w])) as HPm by apply Permutation_cons_append.
      assert (fval (fadd s0 w) = XFin (SW (Cen k w :: node_vec (Node k0 w0 s0 l r)))) as Hs.
      { rewrite (SW_perm HPm), SW_app. apply P_add; [eapply P_perm; [exact HPm|exact HP]|exact S0|].
        apply (@P_in (Cen k w) _ HP). left; auto. }
      destruct (@node_insert_cases F FO FL (Node k0 w0 s0 l r) k w HA0) as [[E _]|(t2 & a & b & E & H1 & H2 & _)]; [congruence|].
      rewrite HE in E. injection E as <-. assert (SW (node_vec t') = SW (Cen k w :: node_vec (Node k0 w0 s0 l r))) as HV.
      { apply SW_perm. rewrite H1, H2. symmetry. apply Permutation_middle. }
      cbn [node_insert] in HE. destruct (flt k k0).
      + destruct (node_insert l k w) as [l'| | |] eqn:El; cbn [bind] in HE; try discriminate. injection HE as <-. cbn [sums].
        split; [now rewrite HV|]. split; [|exact Sr]. eapply IHl; [exact Al|exact Sl| |exact El]. eapply P_app with (b := Cen k0 w0 :: node_vec r). exact HP.
      + destruct (flt k0 k); [|discriminate]. destruct (node_insert r k w) as [r'| | |] eqn:El; cbn [bind] in HE; try discriminate. injection HE as <-. cbn [sums].
        split; [now rewrite HV|]. split; [exact Sl|]. eapply IHr; [exact Ar|exact Sr| |exact El]. eapply P_app_r with (a := node_vec l ++ [Cen k0 w0]).
        eapply P_perm; [|exact HP]. cbn [node_vec]. change (Cen k0 w0 :: node_vec r) with ([Cen k0 w0] ++ node_vec r). rewrite app_assoc. apply Permutation_middle.
  Qed.

  Definition below (x : F) (l : list cen) : list cen := filter (fun c => flt (mean c) x) l.

  Lemma below_all x l : (forall c, In c l -> flt (mean c) x = true) -> below x l = l.
  Proof. intros H. now apply filter_none. Qed.
  Lemma below_none x l : (forall c, In c l -> flt (mean c) x = false) -> below x l = [].
  Proof.
    unfold below. induction l as [|c l IH]; intros H; cbn [filter]; [reflexivity|]. rewrite (H c (or_introl eq_refl)). apply IH. intros; apply H; right; auto.
  Qed.

  Lemma node_less_ok t x : fisnan x = false -> forall acc A, asc (node_vec t) -> clean (node_vec t) -> sums t -> P (A ++ node_vec t) -> fval acc = XFin (SW A) ->
    exists v, node_less t x acc = Ret v /\ fval v = XFin (SW A + SW (below x (node_vec t))).
  Proof.
    intros Hx. induction t as [|k0 w0 s0 l IHl r IHr]; intros acc A HA HC HS HP Hacc.
    - exists acc. split; [reflexivity|]. rewrite Hacc. unfold below, SW. cbn [node_vec filter map sumR fold_right]. apply f_equal. lra.
    - cbn [node_vec] in HA, HC. apply asc_mid in HA as (Al & Ar & Bl & Br). destruct HS as (S0 & Sl & Sr).
      unfold clean in HC. apply Forall_app in HC as [Cl Cr]. pose proof (Forall_inv Cr) as C0. apply Forall_inv_tail in Cr. cbn [mean] in C0.
      cbn [node_less node_vec]. unfold below. rewrite filter_app. cbn [filter mean]. fold (below x (node_vec l)) (below x (node_vec r)).
      destruct (cmp_cases x k0) as [[_ [H|H]]|[[-> H]|[[-> H]|[-> H]]]]; [congruence|congruence| | |]; cbn [bind].
      + assert (flt k0 x = false) as ->. { apply fle_not_flt, flt_fle, H. }
        rewrite (below_none x (node_vec r)); [rewrite app_nil_r|].
        * apply IHl; auto. cbn [node_vec] in HP. rewrite app_assoc in HP. eapply P_app. exact HP.
        * intros c Hc. apply fle_not_flt, flt_fle. eapply flt_trans; [exact H|apply (Br c Hc)].
      + destruct (feq_not_flt _ _ H) as [_ ->]. rewrite (below_none x (node_vec r)); [rewrite app_nil_r|].
        * apply IHl; auto. cbn [node_vec] in HP. rewrite app_assoc in HP. eapply P_app. exact HP.
        * intros c Hc. apply fle_not_flt, flt_fle. eapply feq_flt_l; [exact H|apply (Br c Hc)].
      + rewrite H. rewrite (below_all x (node_vec l)). 2:{ intros c Hc. eapply flt_trans; [apply (Bl c Hc)|exact H]. }
        set (acc' := match l with Leaf => fadd acc w0 | _ => fadd acc (fadd w0 (node_sum l)) end).
        assert (P (A ++ node_vec l ++ [Cen k0 w0])) as HP1.
        { apply (P_app _ (node_vec r)). rewrite <- !app_assoc. exact HP. }
        assert (fval acc' = XFin (SW (A ++ node_vec l ++ [Cen k0 w0]))) as Hacc'.
        { assert (fval w0 = XFin (SW [Cen k0 w0])) as Hw.
          { apply (@P_in (Cen k0 w0) _ HP1). apply in_or_app; right; apply in_or_app; right; left; auto. }
          unfold acc'. destruct l as [|lk lw ls ll lr].
          - cbn [node_vec app] in *. rewrite SW_app. now apply P_add.
          - cbn [node_sum]. destruct Sl as (Sl0 & _). set (vl := node_vec (Node lk lw ls ll lr)) in *.
            assert (fval (fadd w0 ls) = XFin (SW ([Cen k0 w0] ++ vl))) as H1.
            { rewrite SW_app. apply P_add; auto. apply P_app_r in HP1. eapply P_perm; [|exact HP1]. apply Permutation_app_comm. }
            assert (SW (A ++ vl ++ [Cen k0 w0]) = SW (A ++ [Cen k0 w0] ++ vl)) as ->. { apply SW_perm. apply Permutation_app_head, Permutation_app_comm. }
            rewrite SW_app. apply P_add; auto. eapply P_perm; [|exact HP1]. apply Permutation_app_head, Permutation_app_comm. }
        destruct (IHr acc' (A ++ node_vec l ++ [Cen k0 w0])) as (v & E & Hv); auto.
        { rewrite <- !app_assoc. exact HP. }
        exists v. split; [exact E|]. rewrite Hv. apply f_equal. rewrite !SW_app, SW_cons. unfold SW at 3. cbn [map sumR fold_right]. rewrite SW_cons. lra.
  Qed.

  Lemma from_sums l : forall t pre, rep t pre -> sums (kt_root t) -> P (map cen_of pre ++ l) ->
    ForallOrdPairs (fun a b => feq (mean a) (mean b) = false) (map cen_of pre ++ l) -> clean l ->
    exists t', foldM (fun t c => kt_insert t (mean c) (weight c)) t l = Ret t' /\ rep t' (pre ++ map (fun c => (mean c, weight c)) l) /\ sums (kt_root t').
  Proof.
    induction l as [|c l IH]; intros t pre HR HS HP HD HC; cbn [foldM map].
    - exists t. rewrite app_nil_r. auto.
    - pose proof (Forall_inv HC) as Hc. apply Forall_inv_tail in HC.
      assert (present (mean c) pre = false) as Hpr.
      { apply not_true_iff_false. intros E. apply present_in in E as (p & Hp & Hf).
        apply in_split in Hp as (a & b & ->). rewrite map_app in HD. cbn [map] in HD. rewrite <- app_assoc in HD.
        clear - HD Hf FL. induction (map cen_of a) as [|y ys IHy]; cbn [app] in HD.
        - inversion HD as [|? ? H1 H2]; subst. rewrite Forall_forall in H1. specialize (H1 c). cbn [cen_of mean] in H1.
          rewrite (feq_sym _ _ Hf) in H1. discriminate H1. apply in_or_app. right. left. auto.
        - inversion HD; subst. auto. }
      destruct (@insert_rep F FO FL t pre (mean c) (weight c) HR Hc Hpr) as (t1 & E & HR1). rewrite E. cbn [bind].
      assert (cen_of (mean c, weight c) = c) as Ec by (destruct c; reflexivity).
      assert (Permutation (map cen_of pre ++ c :: l) (c :: sorted_vec_key t ++ l)) as HPP.
      { rewrite <- Permutation_middle. constructor. apply Permutation_app_tail. symmetry. apply HR. }
      assert (map cen_of (pre ++ [(mean c, weight c)]) ++ l = map cen_of pre ++ c :: l) as EQ.
      { rewrite map_app. cbn [map]. rewrite Ec, <- app_assoc. reflexivity. }
      destruct (IH t1 (pre ++ [(mean c, weight c)])) as (t2 & E2 & HR2 & HS2); rewrite ?EQ; auto.
      + unfold kt_insert in E. destruct (node_insert (kt_root t) (mean c) (weight c)) as [r| | |] eqn:Er; try discriminate. cbn [bind] in E. injection E as <-.
        cbn [kt_root]. eapply insert_sums; [apply HR|exact HS| |exact Er]. fold (sorted_vec_key t).
        eapply P_app with (b := l). cbn [app]. change (Cen (mean c) (weight c)) with (cen_of (mean c, weight c)). rewrite Ec. eapply P_perm; [exact HPP|exact HP].
      + exists t2. split; [exact E2|]. split; [|exact HS2]. rewrite <- app_assoc in HR2. exact HR2.
  Qed.

  Theorem from_less l : ForallOrdPairs (fun a b => feq (mean a) (mean b) = false) l -> clean l -> P l ->
    exists t, kt_from l = Ret t /\ forall x, fisnan x = false -> exists o, less_than_sum t x = Ret o /\
      match o with None => l = [] | Some v => fval v = XFin (SW (below x l)) end.
  Proof.
    intros HD HC HP. destruct (@from_sums l kt_new []) as (t & E & HR & HS); auto; [apply rep_new|exact I|].
    exists t. split; [exact E|]. intros x Hx. unfold less_than_sum. cbn [app] in HR.
    assert (Permutation (node_vec (kt_root t)) l) as HPm.
    { destruct HR as (_ & H & _). unfold sorted_vec_key in H. rewrite map_map in H. rewrite H. rewrite <- (map_id l) at 2.
      erewrite map_ext; [reflexivity|]. intros [m w]. reflexivity. }
    destruct (@node_less_ok (kt_root t) x Hx f0 []) as (v & Ev & Hv); auto.
    - apply HR.
    - unfold clean in *. rewrite Forall_forall in *. intros c Hc. apply HC. eapply Permutation_in; eauto.
    - cbn [app]. eapply P_perm; [apply Permutation_sym, HPm|exact HP].
    - apply fval_f0.
    - destruct (kt_root t) as [|k0 w0 s0 lt rt] eqn:Er.
      + exists None. split; [reflexivity|]. cbn [node_vec] in HPm. now apply Permutation_nil in HPm.
      + exists (Some v). rewrite Ev. split; [reflexivity|]. rewrite Hv. apply f_equal. unfold SW at 1. cbn [map sumR fold_right]. rewrite Rplus_0_l.
        apply SW_perm. unfold below. now apply filter_perm.
  Qed.
End Sums.

(** ** C35 for whole weights, any arithmetic *)
Section SumsWhole.
  Context {F : Type} {FO : FloatOps F} {FL : FloatLaws F}.
  Notation cen := (centroid F).

  Definition whole (l : list cen) : Prop := exists zs, wts l zs /\ (sumZ zs <= fint)%Z.
  Lemma SW_wts (l : list cen) zs : wts l zs -> SW l = IZR (sumZ zs).
  Proof.
    induction 1 as [|c z l zs [H1 H2] H IH]; [reflexivity|]. rewrite SW_cons, IH. unfold wr. rewrite H1. rewrite sumZ_cons, plus_IZR. reflexivity.
  Qed.

  Theorem from_less_whole (l : list cen) zs : ForallOrdPairs (fun a b => feq (mean a) (mean b) = false) l -> Forall (fun c => fisnan (mean c) = false) l ->
    Forall2 (fun c z => fval (weight c) = XFin (IZR z) /\ (1 <= z)%Z) l zs -> (fold_right Z.add 0 zs <= fint)%Z ->
    exists t, kt_from l = Ret t /\ forall x, fisnan x = false -> exists o, less_than_sum t x = Ret o /\
      match o with None => l = [] | Some v => fval v = XFin (sumR (map (fun c => match fval (weight c) with XFin r => r | _ => 0 end) (filter (fun c => flt (mean c) x) l))) end.
  Proof.
    intros H1 H2 H3 H4. apply (@from_less F FO FL whole); auto.
    - intros a b Hp (z1 & W1 & L1). destruct (wts_perm Hp W1) as (z2 & W2 & Hz). exists z2. split; auto. now rewrite <- (sumZ_perm Hz).
    - intros a b (z1 & W1 & L1). apply wts_app_inv in W1 as (za & zb & -> & Wa & Wb). exists za. split; auto. rewrite sumZ_app in L1.
      pose proof (sumZ_pos (wts_pos Wb)). lia.
    - intros c (z1 & W1 & L1). inversion W1 as [|? z ? ? [E _] _]; subst. unfold wr. now rewrite E.
    - intros x y a b (z1 & W1 & L1) Hx Hy. apply wts_app_inv in W1 as (za & zb & -> & Wa & Wb). rewrite (SW_wts Wa) in *. rewrite (SW_wts Wb) in *.
      rewrite (fadd_fin Hx Hy), <- plus_IZR. apply frnd_exact, fint_exact. rewrite sumZ_app in L1.
      pose proof (sumZ_pos (wts_pos Wa)). pose proof (sumZ_pos (wts_pos Wb)). lia.
    - exists zs. auto.
  Qed.
End SumsWhole.

(** ** C35 in exact arithmetic *)
Theorem from_less_exact (l : list rcen) : NoDup (map fst l) ->
  exists t, kt_from (map emb l) = Ret t /\ forall x, exists o, less_than_sum t (XFin x) = Ret o /\
    match o with None => l = [] | Some v => v = XFin (sumR (map snd (filter (fun p => if Rlt_dec (fst p) x then true else false) l))) end.
Proof.
  intros HD. pose (FL := xr_laws (Z.le_refl 4096)).
  destruct (@from_less xr xr_ops FL (fun l => Forall (fun c => exists r, weight c = XFin r) l)) with (l := map emb l) as (t & E & H).
  - intros a b Hp H. eapply Permutation_Forall; eauto.
  - intros a b H. apply Forall_app in H. tauto.
  - intros c H. apply Forall_inv in H as (r & E). unfold wr. cbn. now rewrite E.
  - intros x y a b H Hx Hy. cbn in Hx, Hy. rewrite Hx, Hy. reflexivity.
  - clear - HD. induction l as [|p l IH]; cbn [map]; constructor.
    + cbn [map] in HD. inversion HD as [|? ? H1 H2]; subst. apply Forall_map, Forall_forall. intros q Hq. apply not_true_iff_false. intros E.
      apply (@feq_iff xr xr_ops (xr_laws (Z.le_refl 4096))) in E as [E _]. cbn in E. injection E as E. apply H1. rewrite E. now apply in_map.
    + cbn [map] in HD. inversion HD; subst. auto.
  - apply clean_emb.
  - apply Forall_map, Forall_forall. intros p _. exists (snd p). reflexivity.
  - exists t. split; [exact E|]. intros x. destruct (H (XFin x) eq_refl) as (o & Eo & Ho). exists o. split; [exact Eo|]. destruct o as [v|].
    + change (v = XFin (SW (below (XFin x) (map emb l)))) in Ho. rewrite Ho. apply f_equal. unfold SW. clear. induction l as [|p l IH]; [reflexivity|].
      unfold below in *. cbn [map filter]. cbn [emb mean fst]. destruct (Rlt_dec (fst p) x) as [L|L].
      * assert (flt (XFin (fst p)) (XFin x) = true) as ->. { unfold flt; cbn. now rewrite Rcompare_Lt. }
        cbn [map sumR fold_right]. unfold sumR in IH. rewrite IH. reflexivity.
      * assert (flt (XFin (fst p)) (XFin x) = false) as ->. { unfold flt; cbn. destruct (Rcompare_spec (fst p) x); auto; lra. }
        exact IH.
    + now apply map_eq_nil in Ho.
Qed.

(* ------------------------------------------------------------------ *)
(** * Nearest keys *)
Section Closest.
  Context {F : Type} {FO : FloatOps F} {FL : FloatLaws F}.
  Notation cen := (centroid F).

  Definition between (c c' : cen) (x : F) : Prop :=
    (fle (mean c) (mean c') = true /\ fle (mean c') x = true) \/ (fle x (mean c') = true /\ fle (mean c') (mean c) = true).

  Lemma node_path_ok t x : fisnan x = false -> asc (node_vec t) -> clean (node_vec t) ->
    exists p, node_path t x = Ret p /\ (forall c, In c p -> In c (node_vec t)) /\ (t <> Leaf -> p <> []) /\
      forall c, In c (node_vec t) -> exists c', In c' p /\ between c c' x.
  Proof.
    intros Hx. induction t as [|k0 w0 s0 l IHl r IHr]; intros HA HC.
    - exists []. repeat split; auto. intros c [].
    - cbn [node_vec] in HA, HC. apply asc_mid in HA as (Al & Ar & Bl & Br).
      unfold clean in HC. apply Forall_app in HC as [Cl Cr]. pose proof (Forall_inv Cr) as C0. apply Forall_inv_tail in Cr. cbn [mean] in C0.
      cbn [node_path]. pose proof (fle_refl _ C0) as R0.
      destruct (cmp_cases x k0) as [[_ [H|H]]|[[-> H]|[[-> H]|[-> H]]]]; [congruence|congruence| | |]; cbn [bind].
      + destruct (IHl Al Cl) as (p & -> & H1 & H2 & H3). cbn [bind]. eexists. split; [reflexivity|]. split; [|split; [discriminate|]].
        * intros c [<-|Hc]; cbn [node_vec]; apply in_or_app; [right; left|left]; auto.
        * cbn [node_vec]. intros c Hc. apply in_app_or in Hc as [Hc|Hc].
          { destruct (H3 c Hc) as (c' & I1 & I2). exists c'. split; [right|]; auto. }
          exists (Cen k0 w0). split; [left; auto|]. right. cbn [mean]. split; [now apply flt_fle|]. destruct Hc as [<-|Hc]; [exact R0|]. apply flt_fle, (Br c Hc).
      + eexists. split; [reflexivity|]. split; [|split; [discriminate|]].
        * intros c [<-|[]]. cbn [node_vec]. apply in_or_app. right. left. auto.
        * cbn [node_vec]. intros c Hc. exists (Cen k0 w0). split; [left; auto|].
          assert (fle x k0 = true /\ fle k0 x = true) as [L1 L2]. { split; rewrite fle_or; [rewrite H|rewrite (feq_sym _ _ H)]; now rewrite orb_true_r. }
          apply in_app_or in Hc as [Hc|[<-|Hc]]; [left|left|right]; cbn [mean]; auto; split; auto; apply flt_fle; [apply (Bl c Hc)|apply (Br c Hc)].
      + destruct (IHr Ar Cr) as (p & -> & H1 & H2 & H3). cbn [bind]. eexists. split; [reflexivity|]. split; [|split; [discriminate|]].
        * intros c [<-|Hc]; cbn [node_vec]; apply in_or_app; right; [left|right]; auto.
        * cbn [node_vec]. intros c Hc. apply in_app_or in Hc as [Hc|[<-|Hc]].
          -- exists (Cen k0 w0). split; [left; auto|]. left. cbn [mean]. split; [|now apply flt_fle]. apply flt_fle, (Bl c Hc).
          -- exists (Cen k0 w0). split; [left; auto|]. left. cbn [mean]. split; [exact R0|now apply flt_fle].
          -- destruct (H3 c Hc) as (c' & I1 & I2). exists c'. split; [right|]; auto.
  Qed.

  (** the distance as computed *)
  Definition dist (x : F) (c : cen) : F := fabs (fsub (mean c) x).
  Definition finite (x : F) : Prop := exists r, fval x = XFin r.

  Lemma frnd_sign a : (a <= 0 -> xle (frnd a) (XFin 0)) /\ (0 <= a -> xle (XFin 0) (frnd a)).
  Proof. rewrite <- (frnd_exact fexact_0). split; intros H; now apply frnd_mono. Qed.
  Lemma dist_mono c c' x : finite (mean c) -> finite (mean c') -> finite x -> between c c' x -> fle (dist x c') (dist x c) = true.
  Proof.
    intros (a & Ha) (b & Hb) (y & Hy) HB. unfold between in HB. rewrite !fle_iff, Ha, Hb, Hy, !xle_fin in HB.
    apply fle_iff. unfold dist. rewrite !fabs_val, (fsub_fin Ha Hy), (fsub_fin Hb Hy).
    destruct (frnd_sign (a - y)) as [P1 P2]. destruct (frnd_sign (b - y)) as [Q1 Q2].
    destruct HB as [[H1 H2]|[H1 H2]].
    - assert (xle (frnd (a - y)) (frnd (b - y))) as H by (apply frnd_mono; lra). specialize (P1 ltac:(lra)). specialize (Q1 ltac:(lra)). clear P2 Q2.
      revert H P1 Q1. generalize (frnd (a - y)), (frnd (b - y)). intros u v H P1 Q1. rewrite xle_iff in *.
      destruct u as [|[]|u], v as [|[]|v]; cbn in *; try tauto. rewrite !Rabs_left1; lra.
    - assert (xle (frnd (b - y)) (frnd (a - y))) as H by (apply frnd_mono; lra). specialize (P2 ltac:(lra)). specialize (Q2 ltac:(lra)). clear P1 Q1.
      revert H P2 Q2. generalize (frnd (a - y)), (frnd (b - y)). intros u v H P1 Q1. rewrite xle_iff in *.
      destruct u as [|[]|u], v as [|[]|v]; cbn in *; try tauto. rewrite !Rabs_pos_eq; lra.
  Qed.
  Lemma dist_nn c x : finite (mean c) -> finite x -> fisnan (dist x c) = false.
  Proof.
    intros (a & Ha) (y & Hy). apply fisnan_false. unfold dist. rewrite fabs_val, (fsub_fin Ha Hy). pose proof (frnd_not_nan (a - y)).
    destruct (frnd (a - y)); cbn; congruence.
  Qed.

  Lemma min_by_exists {A} (key : A -> F) l : l <> [] -> Forall (fun a => fisnan (key a) = false) l ->
    exists m, min_by_key key l = Ret (Some m) /\ In m l /\ forall a, In a l -> fle (key m) (key a) = true.
  Proof.
    intros Hne HN. destruct l as [|a l]; [congruence|]. clear Hne. cbn [min_by_key]. unfold liftM. revert a HN.
    induction l as [|b l IH]; intros a HN; cbn [foldM].
    - exists a. split; [reflexivity|]. split; [left; auto|]. intros y [<-|[]]. apply fle_refl, (Forall_inv HN).
    - pose proof (Forall_inv HN) as Na. apply Forall_inv_tail in HN. pose proof (Forall_inv HN) as Nb. apply Forall_inv_tail in HN.
      assert (exists m, (do c <- cmp_unwrap (key a) (key b); Ret match c with Gt => b | _ => a end) = Ret m /\ In m [a; b] /\ fle (key m) (key a) = true /\ fle (key m) (key b) = true) as (m & -> & Hm & L1 & L2).
      { pose proof (fle_refl _ Na). pose proof (fle_refl _ Nb).
        destruct (cmp_cases (key a) (key b)) as [[_ [H1|H1]]|[[-> H1]|[[-> H1]|[-> H1]]]]; [congruence|congruence| | |]; cbn [bind]; eexists; (split; [reflexivity|]); cbn [In].
        - repeat split; auto. now apply flt_fle.
        - repeat split; auto. rewrite fle_or, H1. apply orb_true_r.
        - repeat split; auto. now apply flt_fle. }
      cbn [bind]. destruct (IH m) as (m' & E & I1 & I2).
      { constructor; auto. destruct Hm as [<-|[<-|[]]]; auto. }
      exists m'. rewrite E. split; [reflexivity|]. split; [destruct I1 as [<-|I1]; [destruct Hm as [<-|[<-|[]]]; [left|right; left]|right; right]; auto|].
      intros y [<-|[<-|Hy]]; [| |apply I2; right; auto]; eapply fle_trans; try eassumption; apply I2; left; auto.
  Qed.

  Lemma closest_keys_ok t l x : rep t l -> l <> [] -> Forall (fun p => finite (fst p)) l -> finite x ->
    exists path m, closest_keys t x = Ret (filter (fun c => flt (fabs (fsub (dist x c) (dist x m))) (frat 1 1000)) path) /\
      In m path /\ (forall c, In c path -> exists p, In p l /\ cen_of p = c) /\ (forall p, In p l -> fle (dist x m) (dist x (cen_of p)) = true).
  Proof.
    intros HR Hne HF Hx. pose proof HR as (A & P & S & N).
    assert (fisnan x = false) as Hxn. { destruct Hx as (r & E). apply fisnan_false. rewrite E. discriminate. }
    assert (clean (node_vec (kt_root t))) as HC. { apply Forall_forall. intros c Hc. destruct (@rep_in F FO t l c HR Hc) as (_ & _ & _ & H). exact H. }
    destruct (@node_path_ok (kt_root t) x Hxn A HC) as (path & E & H1 & H2 & H3).
    assert (forall c, In c path -> exists p, In p l /\ cen_of p = c) as HI.
    { intros c Hc. destruct (@rep_in F FO t l c HR (H1 c Hc)) as (p & Hp & Ep & _). eauto. }
    assert (forall c, In c path -> finite (mean c)) as HFp. { intros c Hc. destruct (HI c Hc) as (p & Hp & <-). rewrite Forall_forall in HF. apply (HF p Hp). }
    assert (kt_root t <> Leaf) as HL. { intros E0. unfold sorted_vec_key in P. rewrite E0 in P. cbn [node_vec] in P. apply Permutation_nil, map_eq_nil in P. auto. }
    destruct (@min_by_exists _ (dist x) path (H2 HL)) as (m & Em & Im & Lm). { apply Forall_forall. intros c Hc. apply dist_nn; auto. }
    exists path, m. split.
    - unfold closest_keys. destruct (kt_root t); [congruence|]. rewrite E. cbn [bind]. change (min_by_key (fun c => fabs (fsub (mean c) x)) path) with (min_by_key (dist x) path). rewrite Em. reflexivity.
    - split; [exact Im|]. split; [exact HI|]. intros p Hp. destruct (H3 (cen_of p)) as (c' & I1 & I2); [now apply rep_in2 with (l := l)|].
      eapply fle_trans; [apply Lm, I1|]. apply dist_mono; auto. rewrite Forall_forall in HF. apply (HF p Hp).
  Qed.

  (** ** C37, any arithmetic: distances as computed *)
  Theorem tree_closest_any ops x : legal [] ops -> live ops <> [] -> Forall (fun p => finite (fst p)) (live ops) -> finite x ->
    flt f0 (frat 1 1000) = true -> (forall p, In p (live ops) -> finite (fabs (fsub (fst p) x))) ->
    exists t l, krun kt_new ops = Ret t /\ closest_keys t x = Ret l /\ (forall c, In c l -> In (mean c, weight c) (live ops)) /\
      exists m, In m l /\ forall p, In p (live ops) -> fle (fabs (fsub (mean m) x)) (fabs (fsub (fst p) x)) = true.
  Proof.
    intros HL Hne HF Hx Hs Hd. destruct (krun_rep _ (@rep_new F FO) HL) as (t & E & HR). fold (live ops) in HR.
    destruct (@closest_keys_ok t _ x HR Hne HF Hx) as (path & m & E2 & Im & HI & Hm). exists t. eexists. split; [exact E|]. split; [exact E2|]. split.
    - intros c Hc. apply filter_In in Hc as [Hc _]. destruct (HI c Hc) as (p & Hp & <-). destruct p. exact Hp.
    - exists m. split; [|intros p Hp; apply (Hm p Hp)]. apply filter_In. split; [exact Im|].
      destruct (HI m Im) as (p & Hp & <-). destruct (Hd p Hp) as (r & Er). apply flt_iff. rewrite fabs_val.
      unfold dist. cbn [cen_of mean]. rewrite (fsub_fin Er Er). replace (r - r) with 0 by lra. rewrite (frnd_exact fexact_0). cbn [xabs]. rewrite Rabs_R0.
      apply flt_iff in Hs. now rewrite fval_f0 in Hs.
  Qed.
End Closest.

(** ** C37 in exact arithmetic *)
Theorem tree_closest_exact (ops : list (@kop xr)) x : legal [] ops -> live ops <> [] -> Forall (fun p => exists r, fst p = XFin r) (live ops) ->
  exists t l, krun kt_new ops = Ret t /\ closest_keys t (XFin x) = Ret l /\
    exists m wm, In (Cen (XFin m) wm) l /\ In (XFin m, wm) (live ops) /\ (forall k w, In (XFin k, w) (live ops) -> Rabs (m - x) <= Rabs (k - x)) /\
      forall c, In c l -> exists k w, c = Cen (XFin k) w /\ In (XFin k, w) (live ops) /\ Rabs (Rabs (k - x) - Rabs (m - x)) < / 1000.
Proof.
  intros HL Hne HF. pose (FL := xr_laws (Z.le_refl 4096)).
  destruct (@krun_rep xr xr_ops FL ops kt_new [] (@rep_new xr xr_ops) HL) as (t & E & HR). fold (live ops) in HR.
  destruct (@closest_keys_ok xr xr_ops FL t _ (XFin x) HR Hne HF) as (path & m & E2 & Im & HI & Hm); [exists x; reflexivity|].
  exists t. eexists. split; [exact E|]. split; [exact E2|]. rewrite Forall_forall in HF.
  destruct (HI m Im) as ([mk wm] & Hp & <-). destruct (HF _ Hp) as (mr & Emr). cbn [fst] in Emr. subst mk. exists mr, wm. cbn [cen_of fst snd] in *.
  split; [|split; [exact Hp|split]].
  - apply filter_In. split; [exact Im|]. unfold flt, dist. cbn. rewrite Rcompare_Lt; auto.
    match goal with |- Rabs ?e < _ => replace e with 0 by lra end. rewrite Rabs_R0. lra.
  - intros k w Hk. specialize (Hm _ Hk). unfold dist in Hm. apply (@fle_iff xr xr_ops FL) in Hm. cbn in Hm.
    apply xle_fin in Hm. exact Hm.
  - intros c Hc. apply filter_In in Hc as [Hc Hf]. destruct (HI c Hc) as ([ck cw] & Hq & <-). destruct (HF _ Hq) as (cr & Ecr). cbn [fst] in Ecr. subst ck.
    exists cr, cw. split; [reflexivity|]. split; [exact Hq|]. apply (@flt_iff xr xr_ops FL) in Hf. unfold dist in Hf. cbn in Hf. apply xlt_iff in Hf. cbn in Hf.
    unfold Rminus. lra.
Qed.
