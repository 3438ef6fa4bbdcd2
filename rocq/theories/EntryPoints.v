(** The remaining entry points: [MultiDigest::new], [MultiDigest::add_digest], [RCSketch::add_buffer_fast], [RCSketch2::add_buffer_fast]. *)
From Coq Require Import List Arith ZArith NArith Lia Bool.
From Verif Require Import Base Floats Digest Spec History MultiSymProofs RCSketch RCHist RCTop RCObs RC2 RC2Hist RC2Top RCRelTop.
Set Implicit Arguments.

Section Multi_add.
  Context {F : Type} {FO : FloatOps F}.
  Theorem multi_add_forwards ops (ds : list (boxed F)) (d : boxed F) :
    whenever (fun r => exists outs out, Forall2 (fun b out => alone ops b (fst out) (snd out)) ds outs /\ alone ops d (fst out) (snd out)
                /\ fst r = map fst outs ++ [fst out]
                /\ snd r = map (fun i => meanF (map (fun out => nth i (snd out) f0) outs ++ [nth i (snd out) f0])) (seq 0 (n_queries ops)))
      (exec (multi_digest F) (multi_add_digest ds d) ops).
  Proof.
    eapply whenever_mono; [apply multi_forwards|]. intros r (outs & H1 & H2 & _ & H4). unfold multi_add_digest in H1.
    apply Forall2_app_inv_l in H1. destruct H1 as (o1 & o2 & A & B & ->). inversion B as [|? out ? ? B1 B2]; subst. inversion B2; subst.
    exists o1, out. split; [exact A|]. split; [exact B1|]. split; [rewrite H2; now rewrite map_app|]. rewrite H4. apply map_ext. intros i. now rewrite map_app.
  Qed.
  Theorem multi_built (ds : list (boxed F)) : fold_left (@multi_add_digest F) ds (@multi_new F) = ds.
  Proof.
    assert (forall l, fold_left (@multi_add_digest F) ds l = l ++ ds) as H.
    { induction ds as [|d ds IH]; intros l; cbn [fold_left]; [now rewrite app_nil_r|]. rewrite IH. unfold multi_add_digest. now rewrite <- app_assoc. }
    apply H.
  Qed.
End Multi_add.

Section Fast.
  Context {F : Type} {FO : FloatOps F}.
  Theorem fast_run lg n k (ops : list (rop F)) l : rc_run lg n k (ops ++ [RCustom l true Default]) = do s <- rc_run lg n k ops; rc_add_buffer_fast s l.
  Proof.
    unfold rc_run. rewrite bind_assoc. apply bind_ext. intros s. unfold rexec. rewrite foldM_app_eq. apply bind_ext. intros s'. cbn [foldM]. apply bind_ret.
  Qed.
  Theorem fast_run2 extra k (ops : list (rop F)) l : rc2_run extra k (ops ++ [RCustom l true Default]) = do s <- rc2_run extra k ops; rc2_add_buffer_fast extra s l.
  Proof. unfold rc2_run, rexec2. rewrite foldM_app_eq. apply bind_ext. intros s'. cbn [foldM]. apply bind_ret. Qed.
  Theorem fast_queries lg n k (ops : list (rop F)) l x :
    (do s <- rc_run lg n k ops; do s' <- rc_add_buffer_fast s l; interpolate_rank s' x) = rank_after lg n k (ops ++ [RCustom l true Default]) x
    /\ (do s <- rc_run lg n k ops; do s' <- rc_add_buffer_fast s l; rc_est_quantile s' x) = quantile_after lg n k (ops ++ [RCustom l true Default]) x
    /\ (do s <- rc_run lg n k ops; do s' <- rc_add_buffer_fast s l; rc_est_value s' x) = value_after lg n k (ops ++ [RCustom l true Default]) x.
  Proof. unfold rank_after, quantile_after, value_after. rewrite fast_run, !bind_assoc. auto. Qed.
  Theorem fast_queries2 extra k (ops : list (rop F)) l x :
    (do s <- rc2_run extra k ops; do s' <- rc2_add_buffer_fast extra s l; interpolate_rank2 s' x) = rank_after2 extra k (ops ++ [RCustom l true Default]) x
    /\ (do s <- rc2_run extra k ops; do s' <- rc2_add_buffer_fast extra s l; rc2_est_quantile s' x) = quantile_after2 extra k (ops ++ [RCustom l true Default]) x
    /\ (do s <- rc2_run extra k ops; do s' <- rc2_add_buffer_fast extra s l; rc2_est_value s' x) = value_after2 extra k (ops ++ [RCustom l true Default]) x.
  Proof. unfold rank_after2, quantile_after2, value_after2. rewrite fast_run2, !bind_assoc. auto. Qed.
End Fast.
