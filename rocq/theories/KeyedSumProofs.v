(** KeyedSumTree: it is a sorted map; prefix sums; nearest keys. *)
From Coq Require Import List Arith ZArith Lia Bool Permutation Sorted Reals Lra.
From Flocq Require Import Core.
From Verif Require Import Base Floats XReal Digest TDigest KeyedSumTree Spec FloatFacts.
Set Implicit Arguments.

Section Map.
  Context {F : Type} {FO : FloatOps F} {FL : FloatLaws F}.
  Notation cen := (centroid F).

  Definition klt (a b : cen) : Prop := flt (mean a) (mean b) = true.
  Definition asc (l : list cen) : Prop := StronglySorted klt l.

  Lemma klt_trans a b c : klt a b -> klt b c -> klt a c.
  Proof. apply flt_trans. Qed.
  Lemma asc_app a b : asc (a ++ b) <-> asc a /\ asc b /\ forall x y, In x a -> In y b -> klt x y.
  Proof.
    unfold asc. induction a as [|x a IH]; cbn [app].
    - split; [intros H; split; [constructor|split; [exact H|intros ? ? []]]|tauto].
    - split.
      + intros H. inversion H as [|? ? H1 H2]; subst. apply IH in H1 as (A & B & C). rewrite Forall_app in H2. destruct H2 as [D E].
        split; [constructor; auto|]. split; [auto|]. intros y z [->|Hy] Hz; [rewrite Forall_forall in E; auto|auto].
      + intros (A & B & C). inversion A as [|? ? A1 A2]; subst. constructor.
        * apply IH. split; [auto|split; [auto|]]. intros; apply C; [right|]; auto.
        * apply Forall_app. split; [auto|]. apply Forall_forall. intros y Hy. apply C; [left|]; auto.
  Qed.
  Lemma asc_cons x l : asc (x :: l) <-> asc l /\ forall y, In y l -> klt x y.
  Proof.
    split; [intros H; inversion H as [|? ? H1 H2]; subst; split; [exact H1|now apply Forall_forall]|].
    intros [H1 H2]. constructor; [exact H1|now apply Forall_forall].
  Qed.
  Lemma asc_mid a c b : asc (a ++ c :: b) <-> asc a /\ asc b /\ (forall x, In x a -> klt x c) /\ (forall y, In y b -> klt c y).
  Proof.
    rewrite asc_app, asc_cons. split.
    - intros (A & [B C] & D). repeat split; auto. intros x Hx. apply D; [auto|left; auto].
    - intros (A & B & C & D). split; [auto|split; [auto|]]. intros x y Hx [<-|Hy]; [auto|]. eapply klt_trans; eauto.
  Qed.

  Lemma feq_not_flt x y : feq x y = true -> flt x y = false /\ flt y x = false.
  Proof.
    rewrite feq_iff. intros [H1 H2]. split; apply not_true_iff_false; rewrite flt_iff; intros H; rewrite H1 in H; revert H; generalize (fval y); intros z Hz; xr_order.
  Qed.
  Lemma feq_flt_l x y z : feq x y = true -> flt y z = true -> flt x z = true.
  Proof. rewrite feq_iff, !flt_iff. intros [-> _]. auto. Qed.
  Lemma feq_flt_r x y z : feq x y = true -> flt z x = true -> flt z y = true.
  Proof. rewrite feq_iff, !flt_iff. intros [-> _]. auto. Qed.
  Lemma feq_sym x y : feq x y = true -> feq y x = true.
  Proof. rewrite !feq_iff. intros [-> ?]. auto. Qed.
  Lemma feq_trans x y z : feq x y = true -> feq y z = true -> feq x z = true.
  Proof. rewrite !feq_iff. intros [-> ?]. auto. Qed.
  Lemma feq_refl x : fisnan x = false -> feq x x = true.
  Proof. rewrite fisnan_false, feq_iff. auto. Qed.

  (** the four outcomes of a comparison *)
  Lemma cmp_cases x y :
    (cmp_unwrap x y = Panic /\ (fisnan x = true \/ fisnan y = true)) \/ (cmp_unwrap x y = Ret Lt /\ flt x y = true) \/
    (cmp_unwrap x y = Ret Eq /\ feq x y = true) \/ (cmp_unwrap x y = Ret Gt /\ flt y x = true).
  Proof.
    unfold cmp_unwrap. rewrite <- (fgt_flt x y). unfold flt, feq, fgt.
    assert (fcmp x y = None -> fisnan x = true \/ fisnan y = true) as H.
    { rewrite !fisnan_iff, fcmp_val. destruct (fval x) as [|[]|], (fval y) as [|[]|]; cbn; try discriminate; auto. }
    destruct (fcmp x y) as [[]|]; cbn [unwrap]; auto.
  Qed.

  (** ** insert *)
  Lemma node_insert_cases (t : tree F) k w : asc (node_vec t) ->
    (node_insert t k w = Panic /\ ((fisnan k = true /\ t <> Leaf) \/ exists c, In c (node_vec t) /\ (feq k (mean c) = true \/ fisnan (mean c) = true))) \/
    exists t' a b, node_insert t k w = Ret t' /\ node_vec t = a ++ b /\ node_vec t' = a ++ Cen k w :: b /\
      (forall c, In c a -> flt (mean c) k = true) /\ (forall c, In c b -> flt k (mean c) = true).
  Proof.
    induction t as [|k0 w0 s0 l IHl r IHr]; intros HA.
    - right. exists (node_new k w), [], []. repeat split; auto; intros ? [].
    - cbn [node_vec] in HA. apply asc_mid in HA as (Al & Ar & Bl & Br). cbn [node_insert]. destruct (flt k k0) eqn:E1.
      + destruct (IHl Al) as [[-> H]|(t' & a & b & -> & H1 & H2 & H3 & H4)].
        * left. cbn [bind]. split; [reflexivity|]. destruct H as [[H _]|(c & Hc & H)]; [left; split; [auto|discriminate]|].
          right. exists c. cbn [node_vec]. split; [apply in_or_app; auto|auto].
        * right. cbn [bind]. exists (Node k0 w0 (fadd s0 w) t' r), a, (b ++ Cen k0 w0 :: node_vec r). cbn [node_vec]. rewrite H1, H2, <- !app_assoc.
          repeat split; auto. intros c Hc. apply in_app_or in Hc as [Hc|[<-|Hc]]; [auto|auto|]. eapply flt_trans; [exact E1|]. apply (Br c Hc).
      + destruct (flt k0 k) eqn:E2.
        * destruct (IHr Ar) as [[-> H]|(t' & a & b & -> & H1 & H2 & H3 & H4)].
          -- left. cbn [bind]. split; [reflexivity|]. destruct H as [[H _]|(c & Hc & H)]; [left; split; [auto|discriminate]|].
             right. exists c. cbn [node_vec]. split; [apply in_or_app; right; right; auto|auto].
          -- right. cbn [bind]. exists (Node k0 w0 (fadd s0 w) l t'), (node_vec l ++ Cen k0 w0 :: a), b. cbn [node_vec]. rewrite H1, H2, <- !app_assoc.
             repeat split; auto. intros c Hc. apply in_app_or in Hc as [Hc|[<-|Hc]]; [|auto|auto]. eapply flt_trans; [apply (Bl c Hc)|exact E2].
        * left. split; [reflexivity|]. destruct (fisnan k) eqn:En; [left; split; [auto|discriminate]|]. right. exists (Cen k0 w0).
          split; [cbn [node_vec]; apply in_or_app; right; left; auto|]. cbn [mean]. destruct (fisnan k0) eqn:En0; [auto|left].
          destruct (fle_total _ _ En En0) as [H|H]; [|congruence]. rewrite fle_or, E1 in H. exact H.
  Qed.

  (** ** delete *)
  Lemma rightmost_vec (t : tree F) : match rightmost_child t with
    | Some ((k, w, _), t') => node_vec t = node_vec t' ++ [Cen k w]
    | None => match t with Leaf => True | Node _ _ _ _ r => r = Leaf end end.
  Proof.
    induction t as [|k0 w0 s0 l _ r IHr]; cbn [rightmost_child]; [exact I|].
    destruct r as [|rk rw rs rl rr]; [reflexivity|].
    destruct (rightmost_child (Node rk rw rs rl rr)) as [[[[mk mw] ms] r']|].
    - cbn [node_vec] in *. rewrite IHr. now rewrite <- app_assoc.
    - rewrite IHr. cbn [node_vec]. rewrite <- !app_assoc. reflexivity.
  Qed.

  Lemma node_delete_cases (t : tree F) x : asc (node_vec t) ->
    (node_delete t x = Panic /\ ((fisnan x = true /\ t <> Leaf) \/ exists c, In c (node_vec t) /\ fisnan (mean c) = true)) \/
    exists t', node_delete t x = Ret t' /\
      ((node_vec t' = node_vec t /\ forall c, In c (node_vec t) -> feq x (mean c) = false) \/
       exists a c b, node_vec t = a ++ c :: b /\ feq x (mean c) = true /\ node_vec t' = a ++ b).
  Proof.
    induction t as [|k0 w0 s0 l IHl r IHr]; intros HA.
    - right. exists Leaf. split; [reflexivity|]. left. split; [reflexivity|intros ? []].
    - cbn [node_vec] in HA. apply asc_mid in HA as (Al & Ar & Bl & Br). cbn [node_delete].
      destruct (cmp_cases x k0) as [[-> H]|[[-> H]|[[-> H]|[-> H]]]]; cbn [bind].
      + left. split; [reflexivity|]. destruct H as [H|H]; [left; split; [auto|discriminate]|]. right. exists (Cen k0 w0). split; [cbn [node_vec]; apply in_or_app; right; left; auto|auto].
      + destruct (IHl Al) as [[-> Hp]|(t' & -> & Hd)]; cbn [bind].
        * left. split; [reflexivity|]. destruct Hp as [[Hp _]|(c & Hc & Hp)]; [left; split; [auto|discriminate]|]. right. exists c. split; [cbn [node_vec]; apply in_or_app; auto|auto].
        * right. exists (Node k0 w0 s0 t' r). split; [reflexivity|]. cbn [node_vec]. destruct Hd as [[H1 H2]|(a & c & b & H1 & H2 & H3)].
          -- left. rewrite H1. split; [reflexivity|]. intros c Hc. apply in_app_or in Hc as [Hc|[<-|Hc]]; [auto| |]; apply not_true_iff_false; intros E.
             ++ cbn [mean] in E. apply feq_not_flt in E. destruct E; congruence.
             ++ apply feq_not_flt in E. destruct E as [E _]. pose proof (flt_trans _ _ _ H (Br c Hc)). congruence.
          -- right. exists a, c, (b ++ Cen k0 w0 :: node_vec r). rewrite H1, H3, <- !app_assoc. auto.
      + right. assert (exists t', node_vec t' = node_vec l ++ node_vec r /\
          match l, r with
          | Leaf, _ => Ret r
          | _, Leaf => Ret l
          | Node lk lw ls ll lr, _ => match rightmost_child l with Some ((mk, mw, ms), l') => Ret (Node mk mw ms l' r) | None => Ret (Node lk lw ls ll r) end
          end = Ret t') as (t' & E1 & E2).
        { pose proof (rightmost_vec l) as HR. destruct l as [|lk lw ls ll lr]; [exists r; auto|]. destruct r as [|rk rw rs rl rr].
          - eexists. split; [|reflexivity]. cbn [node_vec]. now rewrite app_nil_r.
          - destruct (rightmost_child (Node lk lw ls ll lr)) as [[[[mk mw] ms] l']|]; eexists; (split; [|reflexivity]).
            + rewrite HR. cbn [node_vec]. now rewrite <- app_assoc.
            + rewrite HR. cbn [node_vec]. now rewrite <- app_assoc. }
        exists t'. split; [exact E2|]. right. exists (node_vec l), (Cen k0 w0), (node_vec r). auto.
      + destruct (IHr Ar) as [[-> Hp]|(t' & -> & Hd)]; cbn [bind].
        * left. split; [reflexivity|]. destruct Hp as [[Hp _]|(c & Hc & Hp)]; [left; split; [auto|discriminate]|]. right. exists c. split; [cbn [node_vec]; apply in_or_app; right; right; auto|auto].
        * right. exists (Node k0 w0 s0 l t'). split; [reflexivity|]. cbn [node_vec]. destruct Hd as [[H1 H2]|(a & c & b & H1 & H2 & H3)].
          -- left. rewrite H1. split; [reflexivity|]. intros c Hc. apply in_app_or in Hc as [Hc|[<-|Hc]]; [| |auto]; apply not_true_iff_false; intros E.
             ++ apply feq_not_flt in E. destruct E as [_ E]. pose proof (flt_trans _ _ _ (Bl c Hc) H). congruence.
             ++ cbn [mean] in E. apply feq_not_flt in E. destruct E; congruence.
          -- right. exists (node_vec l ++ Cen k0 w0 :: a), c, b. rewrite H1, H3, <- !app_assoc. auto.
  Qed.

  (** ** Histories *)
  Inductive kop := KIns (key weight : F) | KDel (key : F).
  Definition kstep (t : ktree F) (o : kop) : M (ktree F) :=
    match o with KIns k w => kt_insert t k w | KDel k => kt_delete t k end.
  Definition krun : ktree F -> list kop -> M (ktree F) := foldM kstep.

  (** the pairs that should be present, oldest first *)
  Definition present (k : F) (l : list (F * F)) : bool := existsb (fun p => feq k (fst p)) l.
  Definition live_step (l : list (F * F)) (o : kop) : list (F * F) :=
    match o with KIns k w => l ++ [(k, w)] | KDel k => filter (fun p => negb (feq k (fst p))) l end.
  Definition live (ops : list kop) : list (F * F) := fold_left live_step ops [].
  (** inserts of fresh keys, deletes of present ones *)
  Fixpoint legal (l : list (F * F)) (ops : list kop) : Prop :=
    match ops with
    | [] => True
    | o :: ops' => match o with KIns k _ => fisnan k = false /\ present k l = false | KDel k => present k l = true end /\ legal (live_step l o) ops'
    end.

  Definition cen_of (p : F * F) : cen := Cen (fst p) (snd p).
  Definition rep (t : ktree F) (l : list (F * F)) : Prop :=
    asc (sorted_vec_key t) /\ Permutation (sorted_vec_key t) (map cen_of l) /\ kt_size t = length l /\
    Forall (fun p => fisnan (fst p) = false) l.

  Lemma present_in k l : present k l = true <-> exists p, In p l /\ feq k (fst p) = true.
  Proof. unfold present. rewrite existsb_exists. tauto. Qed.
  Lemma rep_in t l c : rep t l -> In c (sorted_vec_key t) -> exists p, In p l /\ cen_of p = c /\ fisnan (mean c) = false.
  Proof.
    intros (_ & HP & _ & HN) Hc. apply (Permutation_in _ HP), in_map_iff in Hc as (p & <- & Hp). exists p. rewrite Forall_forall in HN. repeat split; auto. now apply HN.
  Qed.
  Lemma rep_in2 t l p : rep t l -> In p l -> In (cen_of p) (sorted_vec_key t).
  Proof. intros (_ & HP & _) Hp. eapply Permutation_in; [apply Permutation_sym, HP|]. now apply in_map. Qed.

  Lemma insert_rep t l k w : rep t l -> fisnan k = false -> present k l = false ->
    exists t', kt_insert t k w = Ret t' /\ rep t' (l ++ [(k, w)]).
  Proof.
    intros HR Hk Hp. pose proof HR as (A & P & S & N). unfold kt_insert. destruct (@node_insert_cases (kt_root t) k w A) as [[-> H]|(r & a & b & -> & H1 & H2 & H3 & H4)].
    - exfalso. destruct H as [[H _]|(c & Hc & H)]; [congruence|]. destruct (@rep_in _ _ _ HR Hc) as (p & Hp' & <- & Hn). destruct H as [H|H]; [|congruence].
      rewrite <- not_true_iff_false in Hp. apply Hp, present_in. exists p. auto.
    - cbn [bind]. eexists. split; [reflexivity|]. unfold rep, sorted_vec_key in *. cbn [kt_root kt_size]. rewrite H1 in *. rewrite H2.
      apply asc_app in A as (A1 & A2 & A3). repeat split.
      + apply asc_mid. repeat split; auto.
      + rewrite map_app. cbn [map cen_of fst snd]. rewrite <- Permutation_middle, <- Permutation_cons_append. constructor. exact P.
      + rewrite app_length. cbn [length]. lia.
      + apply Forall_app. split; [exact N|]. constructor; auto.
  Qed.

  (** removing the one equal key *)
  Lemma filter_none {A} (f : A -> bool) l : (forall x, In x l -> f x = true) -> filter f l = l.
  Proof.
    induction l as [|x l IH]; intros H; cbn [filter]; [reflexivity|]. rewrite (H x (or_introl eq_refl)). f_equal. apply IH. intros; apply H; right; auto.
  Qed.
  Lemma filter_perm {A} (f : A -> bool) l l' : Permutation l l' -> Permutation (filter f l) (filter f l').
  Proof.
    induction 1 as [|x l l' H IH|x y l|l1 l2 l3 H1 IH1 H2 IH2]; cbn [filter]; auto.
    - destruct (f x); auto.
    - destruct (f x), (f y); auto. constructor.
    - etransitivity; eauto.
  Qed.
  Lemma filter_map_cen k l : filter (fun c => negb (feq k (mean c))) (map cen_of l) = map cen_of (filter (fun p => negb (feq k (fst p))) l).
  Proof. induction l as [|p l IH]; cbn [map filter cen_of mean]; [reflexivity|]. destruct (feq k (fst p)); cbn [negb map]; [exact IH|]. now rewrite IH. Qed.
  Lemma asc_filter a c b k : asc (a ++ c :: b) -> feq k (mean c) = true -> filter (fun x => negb (feq k (mean x))) (a ++ c :: b) = a ++ b.
  Proof.
    intros HA Hk. apply asc_mid in HA as (_ & _ & H1 & H2). rewrite filter_app. cbn [filter]. rewrite Hk. cbn [negb].
    rewrite !filter_none; auto; intros x Hx; apply negb_true_iff, not_true_iff_false; intros E.
    - pose proof (H2 x Hx) as H. unfold klt in H. pose proof (feq_flt_l _ _ _ Hk H) as Hl. apply feq_not_flt in E. destruct E; congruence.
    - pose proof (H1 x Hx) as H. unfold klt in H. pose proof (feq_flt_r _ _ _ (feq_sym _ _ Hk) H) as Hl. apply feq_not_flt in E. destruct E; congruence.
  Qed.

  Lemma delete_rep t l k : rep t l -> present k l = true ->
    exists t', kt_delete t k = Ret t' /\ rep t' (filter (fun p => negb (feq k (fst p))) l).
  Proof.
    intros HR Hp. pose proof HR as (A & P & S & N). apply present_in in Hp as (p & Hp & Hk).
    assert (fisnan k = false) as Hkn. { apply fisnan_false. apply feq_iff in Hk as [_ ?]. auto. }
    unfold kt_delete. destruct (@node_delete_cases (kt_root t) k A) as [[_ H]|(r & -> & [[H1 H2]|(a & c & b & H1 & H2 & H3)])].
    - exfalso. destruct H as [[H _]|(c & Hc & H)]; [congruence|]. destruct (@rep_in _ _ _ HR Hc) as (q & _ & <- & Hn). congruence.
    - exfalso. pose proof (H2 _ (@rep_in2 _ _ _ HR Hp)) as E. cbn [mean cen_of] in E. congruence.
    - cbn [bind]. assert (length (map cen_of l) = length (a ++ c :: b)) as HL. { rewrite <- H1. symmetry. apply Permutation_length, P. }
      rewrite map_length, app_length in HL. cbn [length] in HL. destruct (kt_size t) as [|n] eqn:En; [lia|].
      eexists. split; [reflexivity|]. unfold rep, sorted_vec_key in *. cbn [kt_root kt_size]. rewrite H1 in *. rewrite H3.
      pose proof (asc_filter _ _ _ _ A H2) as HF.
      assert (Permutation (a ++ b) (map cen_of (filter (fun p => negb (feq k (fst p))) l))) as HP.
      { rewrite <- filter_map_cen, <- HF. now apply filter_perm. }
      repeat split.
      + apply asc_mid in A as (A1 & A2 & A3 & A4). apply asc_app. repeat split; auto. intros x y Hx Hy. eapply klt_trans; [apply A3|apply A4]; auto.
      + exact HP.
      + apply Permutation_length in HP. rewrite app_length, map_length in HP. lia.
      + rewrite Forall_forall in *. intros q Hq. apply filter_In in Hq as [Hq _]. auto.
  Qed.

  Lemma krun_rep ops : forall t l, rep t l -> legal l ops -> exists t', krun t ops = Ret t' /\ rep t' (fold_left live_step ops l).
  Proof.
    induction ops as [|o ops IH]; intros t l HR HL; cbn [fold_left].
    - exists t. auto.
    - destruct HL as [H1 H2]. unfold krun. cbn [foldM].
      assert (exists t', kstep t o = Ret t' /\ rep t' (live_step l o)) as (t' & -> & HR').
      { destruct o as [k w|k]; cbn [kstep live_step]; [destruct H1; now apply insert_rep|now apply delete_rep]. }
      cbn [bind]. apply IH; auto.
  Qed.
  Lemma rep_new : rep kt_new [].
  Proof. repeat split; constructor. Qed.

  (** ** C34 *)
  Theorem tree_is_map ops : legal [] ops ->
    exists t, krun kt_new ops = Ret t /\ Permutation (sorted_vec_key t) (map cen_of (live ops)) /\
      StronglySorted (fun a b => flt (mean a) (mean b) = true) (sorted_vec_key t) /\ kt_size t = length (live ops).
  Proof. intros H. destruct (krun_rep _ rep_new H) as (t & E & A & P & S & _). exists t. auto. Qed.

  Theorem tree_duplicate_panics ops k w : legal [] ops -> present k (live ops) = true -> (do t <- krun kt_new ops; kt_insert t k w) = Panic.
  Proof.
    intros H Hp. destruct (krun_rep _ rep_new H) as (t & -> & HR). cbn [bind]. unfold kt_insert. apply present_in in Hp as (p & Hp & Hk).
    destruct (@node_insert_cases (kt_root t) k w) as [[-> _]|(r & a & b & -> & H1 & H2 & H3 & H4)]; [apply HR|reflexivity|]. exfalso.
    pose proof (@rep_in2 _ _ _ HR Hp) as Hi. unfold sorted_vec_key in Hi. rewrite H1 in Hi. apply feq_not_flt in Hk as [K1 K2].
    apply in_app_or in Hi as [Hi|Hi]; [apply H3 in Hi|apply H4 in Hi]; cbn [cen_of mean] in Hi; congruence.
  Qed.

  Theorem tree_nan_panics ops k w : legal [] ops -> live ops <> [] -> fisnan k = true ->
    (do t <- krun kt_new ops; kt_insert t k w) = Panic /\ (do t <- krun kt_new ops; kt_delete t k) = Panic.
  Proof.
    intros H Hne Hk. destruct (krun_rep _ rep_new H) as (t & -> & HR). cbn [bind]. fold (live ops) in HR.
    assert (kt_root t <> Leaf) as HL. { destruct HR as (_ & P & _ & _). intros E. unfold sorted_vec_key in P. rewrite E in P. cbn [node_vec] in P.
      apply Permutation_nil, map_eq_nil in P. auto. }
    destruct (kt_root t) as [|k0 w0 s0 l r] eqn:Er; [congruence|]. unfold kt_insert, kt_delete. rewrite Er. cbn [node_insert node_delete].
    assert (flt k k0 = false) as ->. { apply not_true_iff_false. intros E. apply flt_nn_l in E. congruence. }
    assert (flt k0 k = false) as ->. { apply not_true_iff_false. intros E. apply flt_nn_r in E. congruence. }
    split; [reflexivity|]. destruct (cmp_cases k k0) as [[-> _]|[[_ E]|[[_ E]|[_ E]]]]; [reflexivity| | |]; exfalso.
    - apply flt_nn_l in E. congruence.
    - apply feq_iff in E as [_ E]. apply fisnan_iff in Hk. auto.
    - apply flt_nn_r in E. congruence.
  Qed.

  (** ** C36 *)
  Theorem tree_delete_absent ops k : legal [] ops -> fisnan k = false -> present k (live ops) = false ->
    exists t, krun kt_new ops = Ret t /\
      (live ops = [] -> kt_delete t k = Panic) /\
      (live ops <> [] -> exists t', kt_delete t k = Ret t' /\ sorted_vec_key t' = sorted_vec_key t /\ S (kt_size t') = kt_size t).
  Proof.
    intros H Hk Hp. destruct (krun_rep _ rep_new H) as (t & E & HR). fold (live ops) in HR. exists t. split; [exact E|].
    pose proof HR as (A & P & S & N). unfold kt_delete.
    destruct (@node_delete_cases (kt_root t) k A) as [[_ H0]|(r & -> & [[H1 H2]|(a & c & b & H1 & H2 & H3)])].
    - exfalso. destruct H0 as [[H0 _]|(c & Hc & H0)]; [congruence|]. destruct (@rep_in _ _ _ HR Hc) as (q & _ & <- & Hn). congruence.
    - cbn [bind]. split.
      + intros E0. rewrite E0 in S. cbn [length] in S. now rewrite S.
      + intros E0. destruct (live ops) as [|p0 l0]; [congruence|]. rewrite S. cbn [length]. eexists. split; [reflexivity|]. split; [exact H1|reflexivity].
    - exfalso. destruct (@rep_in _ _ c HR) as (q & Hq & <- & _); [unfold sorted_vec_key; rewrite H1; apply in_or_app; right; left; auto|].
      rewrite <- not_true_iff_false in Hp. apply Hp, present_in. exists q. auto.
  Qed.
End Map.
