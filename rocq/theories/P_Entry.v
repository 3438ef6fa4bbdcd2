(** Properties C06 and C47 for the remaining entry points: [MultiDigest::new], [MultiDigest::add_digest] and [add_buffer_fast] of both RC sketches. *)
From Coq Require Import List Arith ZArith NArith Lia Bool Reals Lra.
From Flocq Require Import Core BinarySingleNaN.
From Verif Require Import Base Floats XReal IEEE Digest Spec FloatFacts History LinearProofs WrapProofs MultiSymProofs RCSketch RCHist RCTop RCObs RC2 RC2Top P_Wrap P_Parallel P_RC EntryPoints.
Set Implicit Arguments.
Unset Universe Minimization ToSet.

(* ------------------------------------------------------------------ *)
(** * C06 *)

(** [new] followed by [add_digest] of [ds] one by one has exactly the members [ds]. *)
Theorem C06_built : forall F (ds : list (boxed F)), fold_left (@multi_add_digest F) ds (@multi_new F) = ds.
Proof. exact @multi_built. Qed.
Print Assumptions C06_built.

(** After [add_digest(d)] every earlier member and [d] receive the history alone, and every answer is the mean over all of them. *)
Theorem C06_add_digest : forall F (FO : FloatOps F) (ops : list (op F)) (ds : list (boxed F)) (d : boxed F),
  whenever (fun r => exists outs out, Forall2 (fun b out => alone ops b (fst out) (snd out)) ds outs /\ alone ops d (fst out) (snd out)
              /\ fst r = map fst outs ++ [fst out]
              /\ snd r = map (fun i => meanF (map (fun out => nth i (snd out) f0) outs ++ [nth i (snd out) f0])) (seq 0 (n_queries ops)))
    (exec (multi_digest F) (multi_add_digest ds d) ops).
Proof. exact @multi_add_forwards. Qed.
Print Assumptions C06_add_digest.

(** members [10;4], [4] and, added last, [1;4]: the answers are 10, 4 and 4, the mean 6 *)
Example C06_add_digest_nonvacuous :
  match exec (multi_digest f64) (multi_add_digest two_linear (Box (linear_digest f64) [z64 1])) [Add (z64 4); Val (frat 1 2)] with
  | Ret (ds, [a]) => length ds = 3 /\ feq a (z64 6) = true | _ => False end.
Proof. vm_compute. split; reflexivity. Qed.

(* ------------------------------------------------------------------ *)
(** * C47 *)

(** [add_buffer_fast(l)] is the history step [RCustom l true Default], i.e. [add_buffer_custom(l, true, Default)]: every
    theorem about histories speaks of it too.  Here for the sketch itself and for its three queries. *)
Theorem C47_add_buffer_fast : forall F (FO : FloatOps F) lg n k (ops : list (rop F)) l x,
  (do s <- rc_run lg n k ops; rc_add_buffer_fast s l) = rc_run lg n k (ops ++ [RCustom l true Default])
  /\ (do s <- rc_run lg n k ops; do s' <- rc_add_buffer_fast s l; interpolate_rank s' x) = rank_after lg n k (ops ++ [RCustom l true Default]) x
  /\ (do s <- rc_run lg n k ops; do s' <- rc_add_buffer_fast s l; rc_est_quantile s' x) = quantile_after lg n k (ops ++ [RCustom l true Default]) x
  /\ (do s <- rc_run lg n k ops; do s' <- rc_add_buffer_fast s l; rc_est_value s' x) = value_after lg n k (ops ++ [RCustom l true Default]) x.
Proof. exact (fun F FO lg n k ops l x => conj (eq_sym (@fast_run F FO lg n k ops l)) (@fast_queries F FO lg n k ops l x)). Qed.
Print Assumptions C47_add_buffer_fast.

Theorem C47_add_buffer_fast2 : forall F (FO : FloatOps F) extra k (ops : list (rop F)) l x,
  (do s <- rc2_run extra k ops; rc2_add_buffer_fast extra s l) = rc2_run extra k (ops ++ [RCustom l true Default])
  /\ (do s <- rc2_run extra k ops; do s' <- rc2_add_buffer_fast extra s l; interpolate_rank2 s' x) = rank_after2 extra k (ops ++ [RCustom l true Default]) x
  /\ (do s <- rc2_run extra k ops; do s' <- rc2_add_buffer_fast extra s l; rc2_est_quantile s' x) = quantile_after2 extra k (ops ++ [RCustom l true Default]) x
  /\ (do s <- rc2_run extra k ops; do s' <- rc2_add_buffer_fast extra s l; rc2_est_value s' x) = value_after2 extra k (ops ++ [RCustom l true Default]) x.
Proof. exact (fun F FO extra k ops l x => conj (eq_sym (@fast_run2 F FO extra k ops l)) (@fast_queries2 F FO extra k ops l x)). Qed.
Print Assumptions C47_add_buffer_fast2.

(** the batch is really inserted: six items, two of them at most 2 *)
Example C47_add_buffer_fast_nonvacuous :
  (do s <- rc_run lg64 24 6 [RAdd (w64 7)]; do s' <- rc_add_buffer_fast s (map w64 [5; 1; 4; 2; 3]%Z); do r <- interpolate_rank s' (w64 2); Ret (rc_count s', r)) = Ret (6%Z, 2%Z).
Proof. vm_compute. reflexivity. Qed.
