(** A small program with the same distribution of ranks as RCSketch: only the bits "is the item <= v" are kept, and a coin is flipped
    only where it matters. *)
From Coq Require Import List Arith ZArith NArith Lia Bool Permutation Sorted Reals Lra.
From Verif Require Import Base Floats Digest Spec FloatFacts History TDigest RCSketch RCProofs RCHist RCTop RCQuery RCObs RCObs2 RCValue OrderMap.
Set Implicit Arguments.

(* ------------------------------------------------------------------ *)
(** * Same distribution: coins whose two sides are alike can be left out *)
Inductive sim {A B} (Q : A -> B -> Prop) : M A -> M B -> Prop :=
| sim_ret a b : Q a b -> sim Q (Ret a) (Ret b)
| sim_panic : sim Q Panic Panic
| sim_diverge : sim Q Diverge Diverge
| sim_flip f g : (forall c, sim Q (f c) (g c)) -> sim Q (Flip f) (Flip g)
| sim_skip f n : (forall c, sim Q (f c) n) -> sim Q (Flip f) n.

Lemma sim_bind {A B A' B'} (Q : A -> B -> Prop) (Q' : A' -> B' -> Prop) m n f g :
  sim Q m n -> (forall a b, Q a b -> sim Q' (f a) (g b)) -> sim Q' (bind m f) (bind n g).
Proof. intros H Hf. induction H; cbn [bind]; [auto|constructor|constructor|apply sim_flip; auto|apply sim_skip; auto]. Qed.
Lemma sim_map {A B A'} (Q : A -> B -> Prop) (Q' : A' -> B -> Prop) m n f :
  sim Q m n -> (forall a b, Q a b -> Q' (f a) b) -> sim Q' (bind m (fun a => Ret (f a))) n.
Proof. intros H Hf. induction H; cbn [bind]; constructor; auto. Qed.
Lemma sim_refl {A} (Q : A -> A -> Prop) (m : M A) : (forall a, Q a a) -> sim Q m m.
Proof. intros H. induction m; constructor; auto. Qed.
Lemma sim_expect {A B} (Q : A -> B -> Prop) m n (u : A -> R) (w : B -> R) :
  sim Q m n -> (forall a b, Q a b -> u a = w b) -> expect u m = expect w n.
Proof.
  intros H E. induction H as [a b H| | |f g _ IH|f n _ IH]; cbn [expect]; auto.
  - now rewrite (IH false), (IH true).
  - rewrite (IH false), (IH true). lra.
Qed.
Lemma sim_always {A B} (Q : A -> B -> Prop) m n (X : A -> Prop) (Y : B -> Prop) :
  sim Q m n -> (forall a b, Q a b -> Y b -> X a) -> always Y n -> always X m.
Proof. intros H E. induction H; cbn [always]; eauto. Qed.

(** the outcomes with the numbers of coins that lead to them *)
Fixpoint leaves {A} (d : nat) (m : M A) : list (nat * option A) :=
  match m with Ret a => [(d, Some a)] | Flip f => leaves (S d) (f false) ++ leaves (S d) (f true) | _ => [(d, None)] end.
Definition weigh {A} (u : A -> R) (p : nat * option A) : R := match snd p with Some a => u a * / 2 ^ fst p | None => 0 end.
Lemma leaves_expect {A} (u : A -> R) (m : M A) : forall d, (fold_right Rplus 0 (map (weigh u) (leaves d m)) = expect u m * / 2 ^ d)%R.
Proof.
  assert (forall a b : list R, fold_right Rplus 0%R (a ++ b) = (fold_right Rplus 0%R a + fold_right Rplus 0%R b)%R) as E.
  { intros a b. induction a as [|x a IH]; cbn [app fold_right]; [lra|]. rewrite IH. lra. }
  induction m as [a| | |f IH]; intros d; cbn [leaves map fold_right expect]; unfold weigh; cbn [fst snd]; try lra.
  fold (@weigh A u). rewrite map_app, E, !IH. cbn [pow]. assert (2 ^ d <> 0)%R by (apply pow_nonzero; lra). field. assumption.
Qed.
Lemma leaves_always {A} (X : A -> Prop) (m : M A) : forall d, Forall (fun p => match snd p with Some a => X a | None => False end) (leaves d m) -> always X m.
Proof.
  induction m as [a| | |f IH]; intros d H; cbn [leaves always] in *; try (now inversion H).
  apply Forall_app in H. destruct H as [H1 H2]. intros []; eapply IH; eassumption.
Qed.

(* ------------------------------------------------------------------ *)
(** * The program on bits: [true] for an item <= v *)
Definition blt (a b : bool) : bool := a && negb b.
Definition same_bits (l l' : list bool) : bool := if list_eq_dec Bool.bool_dec l l' then true else false.
Definition bcompact (b : list bool) (i : nat) : M (list bool * list bool) :=
  let s := isort blt b in
  if length s <? i then Panic
  else let up := skipn i s in
       if same_bits (every_other true up) (every_other false up) then Ret (firstn i s, every_other true up)
       else Flip (fun c => Ret (firstn i s, every_other c up)).
Definition blevel : Type := list bool * N.
Definition bensure (lv : list blevel) : list bool * N * list blevel := match lv with [] => (([], 0%N), []) | l :: up => (l, up) end.
Section Bits.
  Variables (k bs : nat) (fast : bool).
  Definition bindex (b : list bool) (c : N) : M (nat * N) :=
    if fast then Ret (bs / 2, c)
    else let r := (trailing_ones c + 1) * k in if length b <? r then Panic else do c' <- bump c; Ret (length b - r, c').
  Fixpoint bfill (fuel : nat) (lv : list blevel) (items : list bool) : M (list blevel) :=
    match fuel with
    | O => Diverge
    | S fuel' =>
        let '((b, c), up) := bensure lv in
        match items with
        | [] => Ret ((b, c) :: up)
        | _ => if bs <? length b then Panic
               else let room := bs - length b in
                    do lv' <- bdrain fuel' (b ++ firstn room items) c up;
                    bfill fuel' lv' (skipn room items)
        end
    end
  with bdrain (fuel : nat) (b : list bool) (c : N) (up : list blevel) : M (list blevel) :=
    match fuel with
    | O => Diverge
    | S fuel' =>
        if length b <? bs then Ret ((b, c) :: up)
        else do (i, c') <- bindex b c;
             do (b', out) <- bcompact b i;
             do up' <- bfill fuel' up out;
             bdrain fuel' b' c' up'
    end.
  Definition binsert (fuel : unit -> nat) (lv : list blevel) (item : bool) : M (list blevel) :=
    let '((b, c), up) := bensure lv in
    let b := b ++ [item] in
    if length b <? bs then Ret ((b, c) :: up)
    else do (i, c') <- bindex b c;
         do (b', out) <- bcompact b i;
         do up' <- bfill (fuel tt) up out;
         Ret ((b', c') :: up').
End Bits.
Definition bheld (lv : list blevel) : nat := fold_right (fun l n => length (fst l) + n) 0 lv.
Definition bfuel (bs : nat) (lv : list blevel) (n : nat) : nat := (bheld lv + n) * (2 * bs + 3) + 2 * n + 3.
Definition bchunks (k bs : nat) (fast : bool) (lv : list blevel) (items : list bool) : M (list blevel) :=
  do cs <- chunks (bs / 2) items;
  foldM (fun lv c => bfill k bs fast (bfuel bs lv (length c)) lv c) lv cs.
Definition bstep (k bs : nat) (lv : list blevel) (o : rop bool) : M (list blevel) :=
  match o with
  | RAdd x => binsert k bs false (fun _ => bfuel bs lv 1) lv x
  | RBuf l => bchunks k bs false lv l
  | RCustom l fast _ => bchunks k bs fast lv l
  end.
Fixpoint brank_from (i : Z) (lv : list blevel) : Z :=
  match lv with [] => 0 | (b, _) :: up => Z.of_nat (length (filter (fun x => x) b)) * 2 ^ i + brank_from (i + 1) up end%Z.
Definition brank (k bs : nat) (ops : list (rop bool)) : M Z :=
  do lv <- foldM (bstep k bs) [] ops;
  if 64 <? length lv then Panic else Ret (brank_from 0 lv).

(* ------------------------------------------------------------------ *)
(** * It has the distribution of RCSketch's ranks *)
Section Bits_correct.
  Context {F : Type} {FO : FloatOps F} {FL : FloatLaws F} (v : F).
  Hypothesis Hv : fisnan v = false.
  Definition bit (x : F) : bool := fle x v.
  Definition bop (o : rop F) : rop bool := match o with RAdd x => RAdd (bit x) | RBuf l => RBuf (map bit l) | RCustom l fast m => RCustom (map bit l) fast m end.

  Lemma bit_order x y : fisnan x = false -> fisnan y = false ->
    (flt x y = true -> blt (bit x) (bit y) = true \/ bit x = bit y) /\ (flt x y = false -> blt (bit x) (bit y) = false).
  Proof using FL.
    intros Hx Hy. unfold blt, bit. split; intros E; destruct (fle x v) eqn:Ex, (fle y v) eqn:Ey; cbn [andb negb]; auto; exfalso.
    - pose proof (@fle_trans _ _ _ _ _ _ (flt_fle _ _ E) Ey). congruence.
    - assert (fle y x = true) as H by (destruct (fle_total _ _ Hy Hx) as [H|H]; [exact H|congruence]).
      pose proof (@fle_trans _ _ _ _ _ _ H Ex). congruence.
  Qed.
  Lemma sort_bits (l : list F) : no_nan l -> exists s, sort_by_key (fun x => x) l = Ret s /\ isort blt (map bit l) = map bit s /\ no_nan s.
  Proof using FL Hv.
    intros Hl. exists (isort (fun a b => flt a b) l). split; [|split].
    - destruct l as [|a [|b l]]; [reflexivity|reflexivity|]. unfold sort_by_key. rewrite (@keys_nn_existsb _ _ _ (fun x : F => x)); [reflexivity|exact Hl].
    - symmetry. apply (@isort_map F bool (fun a b => flt a b) blt bit (fun x => fisnan x = false)).
      + intros x y Hx Hy. now apply bit_order.
      + intros x y Hx Hy. now apply bit_order.
      + exact Hl.
      + intros l' (p & ->). apply Forall_app in Hl. destruct Hl as [_ Hl].
        pose proof (@isort_sorted F FO FL F (fun x : F => x) l' Hl) as HS. clear - HS FL. induction HS as [|x l2 HS IH HF]; constructor; [exact IH|].
        eapply Forall_impl; [|exact HF]. unfold kle. intros y Hy. destruct (flt y x) eqn:E; [|reflexivity].
        pose proof (fle_flt_trans x y x Hy E) as H. now rewrite flt_irrefl in H.
    - eapply Permutation_Forall; [apply isort_perm|exact Hl].
  Qed.

  Definition blv (l : @level F) : blevel := (map bit (fst l), snd l).
  Definition nn_levels (lv : list (@level F)) : Prop := Forall (fun l => no_nan (fst l)) lv.
  Definition brel (lv : list (@level F)) (lv' : list blevel) : Prop := lv' = map blv lv /\ nn_levels lv.
  Definition bpair (p : list F * list F) (p' : list bool * list bool) : Prop := p' = (map bit (fst p), map bit (snd p)) /\ no_nan (fst p) /\ no_nan (snd p).

  Lemma bcompact_sim b i : no_nan b -> sim bpair (rc_compact b i Default) (bcompact (map bit b) i).
  Proof using FL Hv.
    intros Hb. unfold rc_compact, bcompact. destruct (sort_bits Hb) as (s & -> & -> & Hs). cbn [bind]. rewrite map_length. destruct (length s <? i); [constructor|].
    assert (forall c, bpair (firstn i s, every_other c (skipn i s)) (firstn i (map bit s), every_other c (skipn i (map bit s)))) as E.
    { intros c. unfold bpair. cbn [fst snd]. split; [now rewrite firstn_map, skipn_map, every_other_map|].
      split; [now apply Forall_firstn'|now apply every_other_P, Forall_skipn']. }
    unfold same_bits. destruct (list_eq_dec _ _ _) as [Eq|_].
    - apply sim_skip. intros c. constructor. destruct c; [apply E|]. rewrite Eq. apply E.
    - apply sim_flip. intros c. constructor. apply E.
  Qed.
  Lemma bindex_eq k bs fast b c : bindex k bs fast (map bit b) c = compact_index k bs fast b c.
  Proof. unfold bindex, compact_index, get_compact_index, get_compact_index_fast. now rewrite map_length. Qed.
  Lemma bensure_eq lv : nn_levels lv -> exists b c up, ensure lv = ((b, c), up) /\ bensure (map blv lv) = ((map bit b, c), map blv up) /\ no_nan b /\ nn_levels up.
  Proof.
    intros Hlv. destruct lv as [|[b c] up]; [exists [], 0%N, []; repeat split; constructor|].
    inversion Hlv; subst. exists b, c, up. repeat split; assumption.
  Qed.
  Lemma bfill_sim k bs fast fuel :
    (forall lv items, nn_levels lv -> no_nan items -> sim brel (fill k bs fast Default fuel lv items) (bfill k bs fast fuel (map blv lv) (map bit items))) /\
    (forall b c up, no_nan b -> nn_levels up -> sim brel (drain k bs fast Default fuel b c up) (bdrain k bs fast fuel (map bit b) c (map blv up))).
  Proof using FL Hv.
    induction fuel as [|fuel [IHf IHd]]; split.
    - intros. cbn. constructor.
    - intros. cbn. constructor.
    - intros lv items Hlv Hit. cbn [fill bfill]. destruct (bensure_eq Hlv) as (b & c & up & -> & -> & Hb & Hup). destruct items as [|x items]; cbn [map].
      + constructor. split; [reflexivity|]. constructor; assumption.
      + change (bit x :: map bit items) with (map bit (x :: items)). set (its := x :: items) in *. rewrite map_length. destruct (bs <? length b); [constructor|].
        rewrite firstn_map, skipn_map, <- map_app. eapply sim_bind.
        * apply IHd; [apply Forall_app; split; [exact Hb|now apply Forall_firstn']|exact Hup].
        * intros lv1 lv2 [-> H1]. apply IHf; [exact H1|now apply Forall_skipn'].
    - intros b c up Hb Hup. cbn [drain bdrain]. rewrite map_length. destruct (length b <? bs).
      + constructor. split; [reflexivity|constructor; assumption].
      + rewrite bindex_eq. eapply sim_bind; [apply (@sim_refl _ eq); reflexivity|]. intros [i c'] ? <-.
        eapply sim_bind; [exact (bcompact_sim i Hb)|]. intros [b1 out] [b2 out2] (E & H1 & H2). cbn [fst snd] in *. injection E as -> ->.
        eapply sim_bind; [exact (IHf up out Hup H2)|]. intros up1 up2 [-> Hu]. apply IHd; assumption.
  Qed.
  Lemma binsert_sim k bs fuel lv x : nn_levels lv -> fisnan x = false -> sim brel (insert_one k bs false Default fuel lv x) (binsert k bs false (fun _ => fuel) (map blv lv) (bit x)).
  Proof using FL Hv.
    intros Hlv Hx. unfold insert_one, binsert. destruct (bensure_eq Hlv) as (b & c & up & -> & -> & Hb & Hup).
    change [bit x] with (map bit [x]). rewrite <- map_app, map_length. assert (no_nan (b ++ [x])) as Hb' by (apply Forall_app; split; [exact Hb|constructor; [exact Hx|constructor]]).
    destruct (length (b ++ [x]) <? bs).
    - constructor. split; [reflexivity|constructor; assumption].
    - rewrite bindex_eq. eapply sim_bind; [apply (@sim_refl _ eq); reflexivity|]. intros [i c'] ? <-.
      eapply sim_bind; [exact (bcompact_sim i Hb')|]. intros [b1 out] [b2 out2] (E & H1 & H2). cbn [fst snd] in *. injection E as -> ->.
      eapply sim_bind; [exact (proj1 (bfill_sim k bs false fuel) up out Hup H2)|]. intros up1 up2 [-> Hu]. constructor. split; [reflexivity|constructor; assumption].
  Qed.
  Lemma bfuel_eq bs lv n : bfuel bs (map blv lv) n = rc_fuel bs lv n.
  Proof.
    unfold bfuel, rc_fuel. replace (bheld (map blv lv)) with (held lv); [reflexivity|]. unfold bheld, held.
    induction lv as [|l lv IH]; cbn [map fold_right]; [reflexivity|]. unfold blv at 1. cbn [fst]. now rewrite map_length, IH.
  Qed.
  Lemma bchunks_sim s items fast : nn_levels (rc_levels s) -> no_nan items ->
    sim brel (rc_chunks s items fast Default) (bchunks (rc_k s) (rc_size s) fast (map blv (rc_levels s)) (map bit items)).
  Proof using FL Hv.
    intros Hs Hi. unfold rc_chunks, bchunks.
    eapply sim_bind with (Q := fun cs cs' => cs' = map (map bit) cs /\ Forall no_nan cs).
    - unfold chunks. destruct (rc_size s / 2); [constructor|]. constructor. unfold chunks_list. rewrite map_length. split; [apply chunks_fuel_map|].
      generalize (length items). intros fuel. clear Hs. revert items Hi. induction fuel as [|fuel IH]; intros l Hl; cbn [chunks_fuel]; [constructor|].
      destruct l as [|x l]; [constructor|]. constructor; [now apply Forall_firstn'|]. apply IH. now apply Forall_skipn'.
    - intros cs cs' [-> Hcs]. revert Hs. generalize (rc_levels s) as lv.
      induction Hcs as [|c cs Hc _ IH]; intros lv Hlv; cbn [map foldM]; [constructor; split; [reflexivity|exact Hlv]|].
      rewrite map_length, bfuel_eq. eapply sim_bind; [exact (proj1 (bfill_sim _ _ _ _) lv c Hlv Hc)|]. intros lv1 lv2 [-> H1]. apply IH. exact H1.
  Qed.
  Definition brrel (k bs : nat) (s : rc F) (lv : list blevel) : Prop := rc_k s = k /\ rc_size s = bs /\ brel (rc_levels s) lv.
  Lemma bstep_sim k bs s lv o : brrel k bs s lv -> op_ok (fun x => fisnan x = false) o -> sim (brrel k bs) (rstep s o) (bstep k bs lv (bop o)).
  Proof using FL Hv.
    intros (<- & <- & -> & Hs) Ho. destruct o as [x|l|l fast m]; cbn [rstep bop bstep op_ok] in *.
    - unfold rc_add. rewrite bfuel_eq.
      eapply sim_map; [exact (binsert_sim _ _ _ x Hs Ho)|]. intros lv lv' H. repeat split; apply H.
    - unfold rc_add_buffer. eapply sim_map; [exact (bchunks_sim _ _ Hs Ho)|]. intros lv lv' H. repeat split; apply H.
    - destruct Ho as [Ho ->]. unfold rc_add_buffer_custom. eapply sim_map; [exact (bchunks_sim _ _ Hs Ho)|]. intros lv lv' H. repeat split; apply H.
  Qed.
  Lemma brank_from_eq lv : forall i, brank_from i (map blv lv) = rank_from i lv v.
  Proof.
    induction lv as [|[b c] lv IH]; intros i; cbn [map blv brank_from rank_from fst snd]; [reflexivity|]. rewrite IH. do 3 f_equal.
    clear. induction b as [|x b IH]; cbn [map filter]; [reflexivity|]. unfold bit at 1. destruct (fle x v); cbn [length]; now rewrite IH.
  Qed.
  Theorem brank_sim lg n k bs ops : calc_buffer_size lg n k = Ret bs -> no_nan (ritems_of ops) -> Forall (fun o => rmeth o = Default) ops ->
    sim eq (rank_after lg n k ops v) (brank k bs (map bop ops)).
  Proof using FL Hv.
    intros Hc Hn Hm. pose proof (ops_ok Hn Hm) as Ho. unfold rank_after, rc_run, rc_new, brank. rewrite Hc. cbn [bind].
    assert (forall s lv, brrel k bs s lv -> sim (brrel k bs) (rexec s ops) (foldM (bstep k bs) lv (map bop ops))) as H.
    { clear - Ho FL Hv. induction Ho as [|o ops Ho _ IH]; intros s lv Hs; unfold rexec; cbn [map foldM]; [constructor; exact Hs|].
      eapply sim_bind; [exact (bstep_sim _ Hs Ho)|]. intros s1 s2 H1. apply IH. exact H1. }
    eapply sim_bind; [apply H; repeat split; constructor|]. intros s lv (_ & _ & -> & _). unfold interpolate_rank. rewrite map_length, brank_from_eq.
    apply sim_refl. reflexivity.
  Qed.
End Bits_correct.

Section Consequences.
  Context {F : Type} {FO : FloatOps F} {FL : FloatLaws F}.
  Theorem bits_expect lg n k bs (ops : list (rop F)) v (u : Z -> R) :
    fisnan v = false -> calc_buffer_size lg n k = Ret bs -> no_nan (ritems_of ops) -> Forall (fun o => rmeth o = Default) ops ->
    expect u (rank_after lg n k ops v) = expect u (brank k bs (map (bop v) ops)).
  Proof using FL. intros Hv Hc Hn Hm. eapply sim_expect; [exact (@brank_sim F FO FL v Hv lg n k bs ops Hc Hn Hm)|]. now intros a b ->. Qed.
  Theorem bits_always lg n k bs (ops : list (rop F)) v (X : Z -> Prop) :
    fisnan v = false -> calc_buffer_size lg n k = Ret bs -> no_nan (ritems_of ops) -> Forall (fun o => rmeth o = Default) ops ->
    always X (brank k bs (map (bop v) ops)) -> always X (rank_after lg n k ops v).
  Proof using FL. intros Hv Hc Hn Hm. eapply sim_always; [exact (@brank_sim F FO FL v Hv lg n k bs ops Hc Hn Hm)|]. now intros a b ->. Qed.

  (** ranks below the one sought at [lo] and above it at [hi]: the value lies between *)
  Theorem bits_value lg n k bs (ops : list (rop F)) q r lo hi :
    proper lg n k ops -> default_mode ops -> Nat.even k = true -> few_levels31 n k ops -> ritems_of ops <> [] ->
    (Z.of_nat (length (ritems_of ops)) <= fint)%Z -> fval q = XFin r -> (0 <= r <= 1)%R -> fisnan lo = false -> fisnan hi = false -> calc_buffer_size lg n k = Ret bs ->
    exists t, fval (fmul q (fofZ (Z.of_nat (length (ritems_of ops))))) = XFin t /\
      (always (fun z => (IZR z < t)%R) (brank k bs (map (bop lo) ops)) ->
       always (fun x => In x (ritems_of ops) /\ flt lo x = true) (value_after lg n k ops q)) /\
      (always (fun z => (t < IZR z)%R) (brank k bs (map (bop hi) ops)) ->
       always (fun x => In x (ritems_of ops) /\ fle x hi = true) (value_after lg n k ops q)).
  Proof using FL.
    intros Hp Hm He Hf Hne Hi Hq Hr Hlo Hhi Hc. destruct (@rank_sought F FO FL ops q r Hi Hq Hr) as (t & Ht & H01). exists t. split; [exact Ht|].
    assert (Forall (fun o => rmeth o = Default) ops) as Hd by (apply default_mode_method; exact Hm).
    assert (no_nan (ritems_of ops)) as Hn by apply Hp.
    pose proof (@run_cuts F FO FL lg n k ops q Hp Hm He Hf Hne Hi t Ht H01) as HC.
    split; intros HA; apply value_from_state.
    - pose proof (@rank_state F FO FL lg n k ops Hp Hm He Hf lo _ (@bits_always lg n k bs ops lo _ Hlo Hc Hn Hd HA)) as HR.
      eapply always_mono; [apply always_and; [exact HR|exact HC]|]. cbn beta. intros s [R1 (x & X1 & X2 & X3)]. exists x. split; [exact X1|]. split; [exact X2|].
      rewrite <- INR_IZR_INZ in R1. destruct (flt lo x) eqn:E; [reflexivity|].
      assert (fisnan x = false) as Hx by (unfold no_nan in Hn; rewrite Forall_forall in Hn; now apply Hn).
      assert (fle x lo = true) as E2 by (destruct (fle_total _ _ Hx Hlo) as [H|H]; [exact H|congruence]). pose proof (proj1 X3 _ E2). lra.
    - pose proof (@rank_state F FO FL lg n k ops Hp Hm He Hf hi _ (@bits_always lg n k bs ops hi _ Hhi Hc Hn Hd HA)) as HR.
      eapply always_mono; [apply always_and; [exact HR|exact HC]|]. cbn beta. intros s [R1 (x & X1 & X2 & X3)]. exists x. split; [exact X1|]. split; [exact X2|].
      rewrite <- INR_IZR_INZ in R1.
      assert (fisnan x = false) as Hx by (unfold no_nan in Hn; rewrite Forall_forall in Hn; now apply Hn).
      destruct (fle_total _ _ Hx Hhi) as [H|H]; [exact H|]. pose proof (proj2 X3 _ H). lra.
  Qed.
End Consequences.
