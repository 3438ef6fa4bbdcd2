(** Consequences of [FloatLaws] used throughout: comparisons form a total order on non-NaN values, sorting works,
    integers and half-integers are computed exactly. *)
From Coq Require Import List Arith ZArith Lia Bool Permutation Sorted Reals Lra.
From Flocq Require Import Core.
From Verif Require Import Base Floats Digest Spec.
Set Implicit Arguments.

(** ** extended real order *)
Definition xle_d (x y : xr) : Prop :=
  match x, y with
  | XNaN, _ | _, XNaN => False
  | XInf true, _ => True
  | _, XInf false => True
  | XFin a, XFin b => (a <= b)%R
  | _, _ => False
  end.
Definition xlt_d (x y : xr) : Prop :=
  match x, y with
  | XNaN, _ | _, XNaN => False
  | XInf true, XInf true => False
  | XInf false, XInf false => False
  | XInf true, _ => True
  | _, XInf false => True
  | XFin a, XFin b => (a < b)%R
  | _, _ => False
  end.

Lemma xle_iff x y : xle x y <-> xle_d x y.
Proof.
  unfold xle, xle_d; destruct x as [|[]|a], y as [|[]|b]; cbn; split; intros H; auto; try contradiction;
    try (destruct H as [H|H]; discriminate).
  - destruct (Rcompare_spec a b); try lra. destruct H; discriminate.
  - destruct (Rcompare_spec a b); auto. lra.
Qed.
Lemma xlt_iff x y : xlt x y <-> xlt_d x y.
Proof.
  unfold xlt, xlt_d; destruct x as [|[]|a], y as [|[]|b]; cbn; split; intros H; auto; try discriminate; try tauto.
  - destruct (Rcompare_spec a b); try lra; discriminate.
  - destruct (Rcompare_spec a b); auto; lra.
Qed.

Ltac xr_order :=
  rewrite ?xle_iff, ?xlt_iff in *;
  repeat match goal with x : xr |- _ => destruct x as [|[]|]; try clear x end;
  cbn in *; try tauto; try discriminate; try lra.

Lemma xle_trans x y z : xle x y -> xle y z -> xle x z.
Proof. intros H1 H2. xr_order. Qed.
Lemma xlt_le_trans x y z : xlt x y -> xle y z -> xlt x z.
Proof. intros H1 H2. xr_order. Qed.
Lemma xle_lt_trans x y z : xle x y -> xlt y z -> xlt x z.
Proof. intros H1 H2. xr_order. Qed.
Lemma xlt_trans x y z : xlt x y -> xlt y z -> xlt x z.
Proof. intros H1 H2. xr_order. Qed.
Lemma xlt_le x y : xlt x y -> xle x y.
Proof. intros H1. xr_order. Qed.
Lemma xle_refl x : x <> XNaN -> xle x x.
Proof. intros H. xr_order. Qed.
Lemma xle_total x y : x <> XNaN -> y <> XNaN -> xle x y \/ xlt y x.
Proof. intros H H'. xr_order. Qed.
Lemma xle_antisym x y : xle x y -> xle y x -> x = y.
Proof. intros H1 H2. xr_order. f_equal; lra. Qed.
Lemma xlt_not_le x y : xlt x y -> ~ xle y x.
Proof. intros H1 H2. xr_order. Qed.
Lemma xle_nn_l x y : xle x y -> x <> XNaN.
Proof. intros H ->. xr_order. Qed.
Lemma xle_nn_r x y : xle x y -> y <> XNaN.
Proof. intros H ->. xr_order. Qed.

Section Facts.
  Context {F : Type} {FO : FloatOps F} {FL : FloatLaws F}.

  Lemma fle_iff x y : fle x y = true <-> xle (fval x) (fval y).
  Proof.
    unfold fle, xle. rewrite fcmp_val. destruct (xcmp _ _) as [[]|]; split; intros H; auto; try discriminate;
      destruct H; discriminate.
  Qed.
  Lemma flt_iff x y : flt x y = true <-> xlt (fval x) (fval y).
  Proof.
    unfold flt, xlt. rewrite fcmp_val. destruct (xcmp _ _) as [[]|]; split; intros H; auto; try discriminate.
  Qed.
  Lemma fisnan_iff x : fisnan x = true <-> fval x = XNaN.
  Proof.
    unfold fisnan. rewrite fcmp_val. destruct (fval x) as [|[]|r]; cbn; split; try discriminate; auto.
  Qed.
  Lemma fisnan_false x : fisnan x = false <-> fval x <> XNaN.
  Proof. rewrite <- not_true_iff_false, fisnan_iff. tauto. Qed.
  Lemma feq_iff x y : feq x y = true <-> fval x = fval y /\ fval x <> XNaN.
  Proof.
    unfold feq. rewrite fcmp_val. destruct (fval x) as [|[]|a], (fval y) as [|[]|b]; cbn;
      split; try discriminate; try (intros [A B]; congruence); try (intros _; split; congruence).
    - destruct (Rcompare_spec a b) as [ ? | -> | ? ]; try discriminate. split; congruence.
    - intros [A B]. injection A as ->. now rewrite Rcompare_Eq.
  Qed.
  Lemma fgt_flt x y : fgt x y = flt y x.
  Proof.
    unfold fgt, flt. rewrite !fcmp_val. destruct (fval x) as [|[]|a], (fval y) as [|[]|b]; cbn; auto.
    rewrite (Rcompare_sym b a). now destruct (Rcompare a b).
  Qed.
  Lemma fge_fle x y : fge x y = fle y x.
  Proof.
    unfold fge, fle. rewrite !fcmp_val. destruct (fval x) as [|[]|a], (fval y) as [|[]|b]; cbn; auto.
    rewrite (Rcompare_sym b a). now destruct (Rcompare a b).
  Qed.
  Lemma fle_or x y : fle x y = flt x y || feq x y.
  Proof. unfold fle, flt, feq. destruct (fcmp x y) as [[]|]; reflexivity. Qed.
  Lemma flt_feq_excl x y : flt x y && feq x y = false.
  Proof. unfold flt, feq. destruct (fcmp x y) as [[]|]; reflexivity. Qed.
  Lemma flt_negb_fle x y : fisnan x = false -> fisnan y = false -> flt x y = negb (fle y x).
  Proof.
    rewrite !fisnan_false. intros Hx Hy.
    destruct (fle y x) eqn:E; cbn.
    - apply not_true_iff_false. rewrite flt_iff. apply fle_iff in E. intros H. now apply xlt_not_le in H.
    - apply flt_iff. destruct (@xle_total (fval y) (fval x)) as [H|H]; auto.
      apply fle_iff in H. congruence.
  Qed.

  Lemma fle_trans x y z : fle x y = true -> fle y z = true -> fle x z = true.
  Proof. rewrite !fle_iff. apply xle_trans. Qed.
  Lemma flt_fle_trans x y z : flt x y = true -> fle y z = true -> flt x z = true.
  Proof. rewrite !fle_iff, !flt_iff. apply xlt_le_trans. Qed.
  Lemma fle_flt_trans x y z : fle x y = true -> flt y z = true -> flt x z = true.
  Proof. rewrite !fle_iff, !flt_iff. apply xle_lt_trans. Qed.
  Lemma flt_trans x y z : flt x y = true -> flt y z = true -> flt x z = true.
  Proof. rewrite !flt_iff. apply xlt_trans. Qed.
  Lemma flt_fle x y : flt x y = true -> fle x y = true.
  Proof. rewrite fle_iff, flt_iff. apply xlt_le. Qed.
  Lemma fle_refl x : fisnan x = false -> fle x x = true.
  Proof. rewrite fisnan_false, fle_iff. apply xle_refl. Qed.
  Lemma fle_total x y : fisnan x = false -> fisnan y = false -> fle x y = true \/ flt y x = true.
  Proof. rewrite !fisnan_false, fle_iff, flt_iff. apply xle_total. Qed.
  Lemma flt_irrefl x : flt x x = false.
  Proof.
    apply not_true_iff_false. rewrite flt_iff. intros H. destruct (fval x) as [|[]|] eqn:E; xr_order.
  Qed.
  Lemma flt_not_fle x y : flt x y = true -> fle y x = false.
  Proof.
    intros H. apply not_true_iff_false. rewrite fle_iff. apply flt_iff in H. now apply xlt_not_le.
  Qed.
  Lemma fle_not_flt x y : fle x y = true -> flt y x = false.
  Proof.
    intros H. apply not_true_iff_false. rewrite flt_iff. apply fle_iff in H. intros H'. now apply xlt_not_le in H'.
  Qed.
  Lemma fle_nn_l x y : fle x y = true -> fisnan x = false.
  Proof. rewrite fle_iff, fisnan_false. apply xle_nn_l. Qed.
  Lemma fle_nn_r x y : fle x y = true -> fisnan y = false.
  Proof. rewrite fle_iff, fisnan_false. apply xle_nn_r. Qed.
  Lemma flt_nn_l x y : flt x y = true -> fisnan x = false.
  Proof. intros H. apply flt_fle in H. eapply fle_nn_l; eauto. Qed.
  Lemma flt_nn_r x y : flt x y = true -> fisnan y = false.
  Proof. intros H. apply flt_fle in H. eapply fle_nn_r; eauto. Qed.

  Lemma cmp_unwrap_ok x y (Q : comparison -> Prop) :
    fisnan x = false -> fisnan y = false ->
    (flt x y = true -> Q Lt) -> (feq x y = true -> Q Eq) -> (flt y x = true -> Q Gt) ->
    always Q (cmp_unwrap x y).
  Proof.
    intros Hx Hy HL HE HG. unfold cmp_unwrap.
    rewrite <- (fgt_flt x y) in HG. unfold flt, feq, fgt in *.
    assert (fcmp x y <> None) as Hn.
    { rewrite fcmp_val. apply fisnan_false in Hx. apply fisnan_false in Hy.
      destruct (fval x) as [|[]|], (fval y) as [|[]|]; cbn; congruence. }
    destruct (fcmp x y) as [[]|]; cbn; auto.
  Qed.

  (** ** max / min *)
  Lemma fmax_cases x y : fmax x y = x \/ fmax x y = y.
  Proof. unfold fmax. destruct (fisnan x), (fisnan y), (flt x y); auto. Qed.
  Lemma fmin_cases x y : fmin x y = x \/ fmin x y = y.
  Proof. unfold fmin. destruct (fisnan x), (fisnan y), (flt y x); auto. Qed.
  Lemma fmax_ge_l x y : fisnan x = false -> fle x (fmax x y) = true.
  Proof.
    intros Hx. unfold fmax. rewrite Hx. destruct (fisnan y) eqn:Hy; [now apply fle_refl|].
    destruct (flt x y) eqn:E; [now apply flt_fle | now apply fle_refl].
  Qed.
  Lemma fmax_ge_r x y : fisnan y = false -> fle y (fmax x y) = true.
  Proof.
    intros Hy. unfold fmax. rewrite Hy. destruct (fisnan x) eqn:Hx; [now apply fle_refl|].
    destruct (flt x y) eqn:E; [now apply fle_refl |].
    destruct (fle_total _ _ Hy Hx) as [H|H]; [assumption | congruence].
  Qed.
  Lemma fmin_le_l x y : fisnan x = false -> fle (fmin x y) x = true.
  Proof.
    intros Hx. unfold fmin. rewrite Hx. destruct (fisnan y) eqn:Hy; [now apply fle_refl|].
    destruct (flt y x) eqn:E; [now apply flt_fle | now apply fle_refl].
  Qed.
  Lemma fmin_le_r x y : fisnan y = false -> fle (fmin x y) y = true.
  Proof.
    intros Hy. unfold fmin. rewrite Hy. destruct (fisnan x) eqn:Hx; [now apply fle_refl|].
    destruct (flt y x) eqn:E; [now apply fle_refl |].
    destruct (fle_total _ _ Hx Hy) as [H|H]; [assumption | congruence].
  Qed.

  (** ** exact small numbers *)
  Lemma fval_int z : (Z.abs z <= fint)%Z -> fval (fofZ z) = XFin (IZR z).
  Proof. intros H. rewrite fofZ_val. now apply frnd_exact, fint_exact. Qed.
  Lemma fval_nat n : (Z.of_nat n <= fint)%Z -> fval (fof_nat n) = XFin (INR n).
  Proof. intros H. unfold fof_nat. rewrite fval_int by lia. now rewrite <- INR_IZR_INZ. Qed.
  Lemma fval_f0 : fval f0 = XFin 0.
  Proof. apply fval_int. pose proof fint_ge. lia. Qed.
  Lemma fval_f1 : fval f1 = XFin 1.
  Proof. apply fval_int. pose proof fint_ge. lia. Qed.
  Lemma fval_f2 : fval f2 = XFin 2.
  Proof. apply fval_int. pose proof fint_ge. lia. Qed.
  Lemma fval_fhalf : fval fhalf = XFin (1/2).
  Proof.
    unfold fhalf. pose proof fint_ge. rewrite frat_val by lia. apply frnd_exact. apply fhalf_exact. lia.
  Qed.

  Lemma frnd_range a b r : fexact a -> fexact b -> (a <= r <= b)%R ->
    exists r', frnd r = XFin r' /\ (a <= r' <= b)%R.
  Proof.
    intros Ha Hb [H1 H2]. apply frnd_mono in H1. apply frnd_mono in H2.
    rewrite (frnd_exact Ha) in H1. rewrite (frnd_exact Hb) in H2.
    rewrite xle_iff in H1, H2. destruct (frnd r) as [|[]|r']; cbn in *; try tauto. eauto.
  Qed.
  Lemma fexact_0 : fexact 0.
  Proof. apply (fint_exact 0). pose proof fint_ge. lia. Qed.
  Lemma fexact_1 : fexact 1.
  Proof. apply (fint_exact 1). pose proof fint_ge. lia. Qed.
  Lemma fexact_nat n : (Z.of_nat n <= fint)%Z -> fexact (INR n).
  Proof. intros. rewrite INR_IZR_INZ. apply fint_exact. lia. Qed.

  (** ** sorting *)
  Section Sort.
    Context {A : Type}.
    Variable key : A -> F.
    Definition kle (a b : A) : Prop := fle (key a) (key b) = true.
    Definition keys_nn (l : list A) : Prop := Forall (fun a => fisnan (key a) = false) l.

    Lemma insert_sorted_sorted x l :
      fisnan (key x) = false -> keys_nn l -> StronglySorted kle l ->
      StronglySorted kle (insert_sorted (fun a b => flt (key a) (key b)) x l).
    Proof.
      intros Hx Hl HS. induction HS as [|y l HS IH Hy]; cbn.
      - repeat constructor.
      - inversion Hl as [|? ? Hy0 Hl']; subst.
        destruct (flt (key y) (key x)) eqn:E.
        + constructor; [now apply IH|].
          eapply Permutation_Forall; [apply insert_sorted_perm|].
          constructor; [now apply flt_fle | exact Hy].
        + constructor; [now constructor|].
          assert (fle (key x) (key y) = true) as Hle.
          { destruct (fle_total _ _ Hx Hy0) as [H|H]; [assumption | congruence]. }
          constructor; [exact Hle|]. eapply Forall_impl; [|exact Hy].
          intros a Ha. eapply fle_trans; [exact Hle|exact Ha].
    Qed.

    Lemma isort_sorted l :
      keys_nn l -> StronglySorted kle (isort (fun a b => flt (key a) (key b)) l).
    Proof.
      induction l as [|x l IH]; cbn; intros H; [constructor|].
      inversion H; subst. apply insert_sorted_sorted; auto.
      eapply Permutation_Forall; [apply isort_perm|]. assumption.
    Qed.

    Lemma keys_nn_existsb l : keys_nn l -> existsb (fun a => fisnan (key a)) l = false.
    Proof.
      induction 1 as [|a l Ha Hl IH]; cbn; auto. now rewrite Ha.
    Qed.

    Lemma sort_by_key_ok l (Q : list A -> Prop) :
      keys_nn l ->
      (forall l', Permutation l l' -> StronglySorted kle l' -> Q l') -> always Q (sort_by_key key l).
    Proof.
      intros Hn HQ. destruct l as [|a [|b l]]; cbn [sort_by_key].
      - apply HQ; constructor.
      - apply HQ; repeat constructor.
      - rewrite keys_nn_existsb by assumption. cbn [always]. apply HQ.
        + apply isort_perm.
        + now apply isort_sorted.
    Qed.

    Lemma sort_by_key_whenever l (Q : list A -> Prop) :
      (forall l', Permutation l l' -> Q l') -> whenever Q (sort_by_key key l).
    Proof.
      intros HQ. destruct l as [|a [|b l]]; cbn [sort_by_key]; try (apply HQ; reflexivity).
      destruct (existsb _ _); cbn [whenever]; auto. apply HQ, isort_perm.
    Qed.
  End Sort.

  (** ** ranks *)
  Lemma filter_perm {A} (f : A -> bool) l l' : Permutation l l' -> Permutation (filter f l) (filter f l').
  Proof.
    induction 1; cbn; auto.
    - destruct (f x); auto.
    - destruct (f x), (f y); auto. apply perm_swap.
    - etransitivity; eauto.
  Qed.
  Lemma n_lt_perm l l' v : Permutation l l' -> n_lt l v = n_lt l' v.
  Proof. intros H. apply Permutation_length, filter_perm, H. Qed.
  Lemma n_eq_perm l l' v : Permutation l l' -> n_eq l v = n_eq l' v.
  Proof. intros H. apply Permutation_length, filter_perm, H. Qed.
  Lemma n_le_perm l l' v : Permutation l l' -> n_le l v = n_le l' v.
  Proof. intros H. apply Permutation_length, filter_perm, H. Qed.

  Lemma filter_length_le {A} (f : A -> bool) l : length (filter f l) <= length l.
  Proof. induction l; cbn; auto. destruct (f a); cbn; lia. Qed.
  Lemma filter_length_mono {A} (f g : A -> bool) l :
    (forall x, In x l -> f x = true -> g x = true) -> length (filter f l) <= length (filter g l).
  Proof.
    induction l as [|a l IH]; cbn; intros H; auto.
    assert (length (filter f l) <= length (filter g l)) by (apply IH; intros; apply H; auto).
    destruct (f a) eqn:E; [rewrite (H a) by auto; cbn; lia|].
    destruct (g a); cbn; lia.
  Qed.

  Lemma n_le_lt_eq l v : n_le l v = n_lt l v + n_eq l v.
  Proof.
    unfold n_le, n_lt, n_eq. induction l as [|a l IH]; cbn; auto.
    pose proof (fle_or a v) as H. pose proof (flt_feq_excl a v) as H'.
    destruct (flt a v), (feq a v), (fle a v); cbn in *; try discriminate; lia.
  Qed.
  Lemma n_le_length l v : n_le l v <= length l.
  Proof. apply filter_length_le. Qed.
  Lemma n_lt_length l v : n_lt l v <= length l.
  Proof. apply filter_length_le. Qed.
  (** everything at or below v1 is strictly below a larger v2 *)
  Lemma n_le_lt_mono l v1 v2 : flt v1 v2 = true -> n_le l v1 <= n_lt l v2.
  Proof.
    intros H. apply filter_length_mono. intros x _ Hx. eapply fle_flt_trans; eauto.
  Qed.
  Lemma n_le_mono l v1 v2 : fle v1 v2 = true -> n_le l v1 <= n_le l v2.
  Proof.
    intros H. apply filter_length_mono. intros x _ Hx. eapply fle_trans; eauto.
  Qed.
  Lemma n_lt_mono l v1 v2 : fle v1 v2 = true -> n_lt l v1 <= n_lt l v2.
  Proof.
    intros H. apply filter_length_mono. intros x _ Hx. eapply flt_fle_trans; eauto.
  Qed.

  Lemma n_lt_app l1 l2 v : n_lt (l1 ++ l2) v = n_lt l1 v + n_lt l2 v.
  Proof. unfold n_lt. now rewrite filter_app, app_length. Qed.
  Lemma n_le_app l1 l2 v : n_le (l1 ++ l2) v = n_le l1 v + n_le l2 v.
  Proof. unfold n_le. now rewrite filter_app, app_length. Qed.

  Lemma filter_all {A} (f : A -> bool) l : Forall (fun x => f x = true) l -> filter f l = l.
  Proof. induction 1 as [|x l H Hl IH]; cbn; auto. now rewrite H, IH. Qed.
  Lemma filter_none {A} (f : A -> bool) l : Forall (fun x => f x = false) l -> filter f l = [].
  Proof. induction 1 as [|x l H Hl IH]; cbn; auto. now rewrite H. Qed.

  Lemma SS_app {A} (R : A -> A -> Prop) l1 l2 :
    StronglySorted R (l1 ++ l2) ->
    StronglySorted R l1 /\ StronglySorted R l2 /\ forall x y, In x l1 -> In y l2 -> R x y.
  Proof.
    induction l1 as [|a l1 IH]; cbn; intros H.
    - split; [constructor|]. split; auto. intros x y [].
    - inversion H as [|? ? HS HF]; subst. apply IH in HS as (H1 & H2 & H3).
      rewrite Forall_app in HF. destruct HF as [HF1 HF2].
      split; [constructor; auto|]. split; auto.
      intros x y [<-|Hx] Hy; auto. rewrite Forall_forall in HF2. auto.
  Qed.

  (** the i-th element of sorted data is the i-th order statistic *)
  Lemma sorted_nth_order_stat l i x :
    no_nan l -> StronglySorted (kle (fun x => x)) l -> nth_error l i = Some x -> order_stat l i x.
  Proof.
    intros Hn HS Hi. pose proof (nth_error_In _ _ Hi) as HIn.
    split; [exact HIn|].
    apply nth_error_split in Hi as (l1 & l2 & -> & <-).
    apply SS_app in HS as (S1 & S2 & S12).
    inversion S2 as [|? ? S2' HF]; subst.
    assert (fisnan x = false) as Hx.
    { unfold no_nan in Hn. rewrite Forall_forall in Hn. auto. }
    split.
    - rewrite n_lt_app.
      replace (n_lt (x :: l2) x) with 0; [pose proof (n_lt_length l1 x); lia|].
      symmetry. unfold n_lt. rewrite filter_none; auto.
      constructor; [apply flt_irrefl|]. eapply Forall_impl; [|exact HF].
      intros a Ha. now apply fle_not_flt.
    - rewrite n_le_app.
      assert (n_le l1 x = length l1) as ->.
      { unfold n_le. rewrite filter_all; auto. apply Forall_forall. intros a Ha.
        apply S12; cbn; auto. }
      unfold n_le at 1; cbn [filter]. rewrite fle_refl by assumption. cbn [length]. lia.
  Qed.

  (** order statistics are monotone in the position *)
  Lemma order_stat_mono l i j x y : no_nan l -> i <= j -> order_stat l i x -> order_stat l j y -> fle x y = true.
  Proof.
    intros Hn Hij (Ix & Hx1 & Hx2) (Iy & Hy1 & Hy2).
    unfold no_nan in Hn. rewrite Forall_forall in Hn.
    destruct (fle_total x y (Hn _ Ix) (Hn _ Iy)) as [H|H]; auto.
    apply (n_le_lt_mono l) in H. lia.
  Qed.
End Facts.
