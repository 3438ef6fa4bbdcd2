(** Properties C77 and C78: accuracy of a ParTDigest after any history, in exact arithmetic. *)
From Coq Require Import List Arith ZArith Lia Bool Reals Lra.
From Verif Require Import Base Floats XReal IEEE Digest TDigest Spec FloatFacts TDigestExact TDigestTop ScaleFunctions ScaleProofs TDigestScale TDigestAcc TDigestAcc2 TDigestCap TDigestDrift ParTDSched ParTDrift P_Parallel P_TDigest P_Cluster.
Set Implicit Arguments.
Local Open Scope R_scope.

(** [ops] is any history of additions and queries whose items are the reals [rs], n = [size rs].  [batches] and [held] are the batches
    delivered and the items waiting, as in C72; [deliveries] counts the batches, and one more if items are waiting for the query.
    [pq_answers cfg threads capacity s rs P]: every quantile query v of [s] returns some a with P (n a) v; [pv_answers]: every value
    query q in [0,1] returns some x with P (n q) x, except in the branch of the last centroid ([clear_last], as for C66).
    [within rs e t x] says below x rs - e <= t <= upto x rs + e.
    C29_exact: in exact arithmetic every call returns. *)
Theorem C77_terms : forall lam threads capacity ops rs,
  par_error lam threads capacity ops rs = INR (deliveries capacity ops) * (Rmax 1 (lam (size rs) * size rs) - 1) + chunk_loss lam threads * size rs + Rmax 1 (Rmax 1 (lam (size rs) * size rs) / 2) /\
  deliveries capacity ops = (length (batches capacity [] ops) + length (rest (held capacity [] ops)))%nat /\
  (lam (INR threads) * INR threads <= 1 -> chunk_loss lam threads = 0) /\ (1 < lam (INR threads) * INR threads -> chunk_loss lam threads = lam (INR threads)).
Proof. exact par_terms. Qed.
Print Assumptions C77_terms.
(** one delivery as long as all items fit the buffer and nothing has been asked *)
Theorem C77_one_delivery : forall capacity (ops : list (op xr)), items_of ops <> [] -> (length (items_of ops) <= capacity)%nat ->
  Forall (fun o => match o with Val _ | Quant _ => False | _ => True end) ops -> deliveries capacity ops = 1%nat.
Proof. exact one_delivery. Qed.
Print Assumptions C77_one_delivery.

(* ------------------------------------------------------------------ *)
(** * C77: quantile queries *)
Theorem C77_any : forall cfg k inv cf lam, with_scale cfg k inv cf -> (forall n n', 1 <= n -> n <= n' -> lam n <= lam n') -> (forall n, 1 <= n -> 0 <= lam n) ->
  (forall n, 1 <= n -> step_width k inv cf n (lam n)) -> forall threads, (1 <= threads)%nat -> forall capacity ops rs r,
  items_of ops = map XFin rs -> rs <> [] -> exec (par_t_digest cfg threads capacity td_new) (pt_new td_new) ops = Ret r ->
  pq_answers cfg threads capacity (fst r) rs (within rs (par_error lam threads capacity ops rs)).
Proof. exact (fun cfg k inv cf lam H1 H2 H3 H4 t Ht c ops rs r Hi Hn He => proj1 (@pt_drift cfg k inv cf lam H1 H2 H3 H4 t Ht c ops rs r Hi Hn He)). Qed.
Print Assumptions C77_any.
Theorem C77_k0 : forall cfg cf threads capacity ops rs r, 0 < cf -> (1 <= threads)%nat -> items_of ops = map XFin rs -> rs <> [] ->
  exec (par_t_digest cfg threads capacity td_new) (pt_new td_new) ops = Ret r -> with_scale cfg k0 inv_k0 cf ->
  pq_answers cfg threads capacity (fst r) rs (within rs (par_error (fun _ => 2 / cf) threads capacity ops rs)).
Proof. exact (fun cfg cf t c ops rs r Hc Ht Hi Hn He Hw => proj1 (@pdrift_k0 cfg cf t c ops rs r Hc Ht Hi Hn He Hw)). Qed.
Print Assumptions C77_k0.
Theorem C77_k1 : forall cfg cf threads capacity ops rs r, 0 < cf -> (1 <= threads)%nat -> items_of ops = map XFin rs -> rs <> [] ->
  exec (par_t_digest cfg threads capacity td_new) (pt_new td_new) ops = Ret r -> with_scale cfg k1 inv_k1 cf ->
  pq_answers cfg threads capacity (fst r) rs (within rs (par_error (fun _ => PI / cf) threads capacity ops rs)).
Proof. exact (fun cfg cf t c ops rs r Hc Ht Hi Hn He Hw => proj1 (@pdrift_k1 cfg cf t c ops rs r Hc Ht Hi Hn He Hw)). Qed.
Print Assumptions C77_k1.
Theorem C77_k2 : forall cfg cf threads capacity ops rs r, 0 < cf -> (1 <= threads)%nat -> items_of ops = map XFin rs -> rs <> [] ->
  exec (par_t_digest cfg threads capacity td_new) (pt_new td_new) ops = Ret r -> with_scale cfg k2 inv_k2 cf -> 0 < den 24 cf 1 ->
  pq_answers cfg threads capacity (fst r) rs (within rs (par_error (fun n => ln 10 / 4 * (den 24 cf n / cf)) threads capacity ops rs)).
Proof. exact (fun cfg cf t c ops rs r Hc Ht Hi Hn He Hw Hd => proj1 (@pdrift_k2 cfg cf t c ops rs r Hc Ht Hi Hn He Hw Hd)). Qed.
Print Assumptions C77_k2.
Theorem C77_k3 : forall cfg cf threads capacity ops rs r, 0 < cf -> (1 <= threads)%nat -> items_of ops = map XFin rs -> rs <> [] ->
  exec (par_t_digest cfg threads capacity td_new) (pt_new td_new) ops = Ret r -> with_scale cfg k3 inv_k3 cf -> 0 < den 21 cf 1 ->
  pq_answers cfg threads capacity (fst r) rs (within rs (par_error (fun n => ln 10 / 2 * (den 21 cf n / cf)) threads capacity ops rs)).
Proof. exact (fun cfg cf t c ops rs r Hc Ht Hi Hn He Hw Hd => proj1 (@pdrift_k3 cfg cf t c ops rs r Hc Ht Hi Hn He Hw Hd)). Qed.
Print Assumptions C77_k3.
Theorem C77_k2_asym : forall cfg cf threads capacity ops rs r, 0 < cf -> (1 <= threads)%nat -> items_of ops = map XFin rs -> rs <> [] ->
  exec (par_t_digest cfg threads capacity td_new) (pt_new td_new) ops = Ret r -> with_scale cfg k2_asym inv_k2_asym cf -> 0 < den 24 (cf * 2) 1 ->
  pq_answers cfg threads capacity (fst r) rs (within rs (par_error (fun n => ln 10 / 4 * (den 24 (cf * 2) n / cf)) threads capacity ops rs)).
Proof. exact (fun cfg cf t c ops rs r Hc Ht Hi Hn He Hw Hd => proj1 (@pdrift_k2_asym cfg cf t c ops rs r Hc Ht Hi Hn He Hw Hd)). Qed.
Print Assumptions C77_k2_asym.

(** f64, k0 with cf = 8, two threads, room for 100: sixteen items in one delivery, W = 4, chunks of two lose nothing, so answers are
    within 3 + 2; at 11/2 the truth is 9 and the answer 17/2.  With room for 4 and three calls there are three deliveries. *)
Definition sixteen : list Z := [0; 2; 4; 6; 8; 10; 12; 14; 5; 5; 1; 1; 1; 1; 9; 9]%Z.
Definition three_calls : list (op xr) := [AddBuf (map XFin [0; 2; 4; 6; 8]); Add (XFin 5); Quant (XFin 0); Add (XFin 9)].
Example C77_nonvacuous : gives (par_run 2 100 8 [AddBuf (map w64 sixteen); Quant (frat 11 2)]) [frat 17 32] = true /\
  length (filter (fun z => z <=? 5)%Z sixteen) = 9%nat /\ deliveries 4 three_calls = 3%nat /\
  (forall ops rs, size rs = 16 -> deliveries 100 ops = 1%nat -> par_error (fun _ => 2 / 8) 2 100 ops rs = 5).
Proof.
  split; [vm_compute; reflexivity|]. split; [reflexivity|]. split; [reflexivity|]. intros ops rs Hn Hd.
  unfold par_error, chunk_loss, cap. rewrite Hd, Hn. cbn [INR]. unfold Rmax. repeat (destruct (Rle_dec _ _)); lra.
Qed.

(* ------------------------------------------------------------------ *)
(** * C78: value queries *)

(** Refuted without the exception for the last centroid, already for one delivery: sixteen items 10, cf = 8, value 9 at rank 14,
    no item <= 9, and the bound is 3 + 2 = 5. *)
Theorem C78_refuted : exists (threads capacity : nat) (cf : Z), (1 <= threads)%nat /\
  gives (par_run threads capacity cf [AddBuf (repeat (w64 10) 16); Val (frat 7 8)]) [w64 9] = true /\ par_error (fun _ => 2 / IZR cf) threads capacity [AddBuf (map XFin (repeat 10 16))] (repeat 10 16) = 5.
Proof.
  exists 1%nat, 100%nat, 8%Z. split; [lia|]. split; [vm_compute; reflexivity|].
  unfold par_error, chunk_loss, cap. rewrite one_delivery; [|discriminate|cbn; lia|repeat constructor]. rewrite repeat_length. cbn [INR]. unfold Rmax. repeat (destruct (Rle_dec _ _)); lra.
Qed.
Print Assumptions C78_refuted.
(** Missing: 1 <= n (1 - q) <= w/2 for a last centroid of weight w > 1 (refuted above), rounding. *)
Theorem C78_any_partial : forall cfg k inv cf lam, with_scale cfg k inv cf -> (forall n n', 1 <= n -> n <= n' -> lam n <= lam n') -> (forall n, 1 <= n -> 0 <= lam n) ->
  (forall n, 1 <= n -> step_width k inv cf n (lam n)) -> forall threads, (1 <= threads)%nat -> forall capacity ops rs r,
  items_of ops = map XFin rs -> rs <> [] -> exec (par_t_digest cfg threads capacity td_new) (pt_new td_new) ops = Ret r ->
  pv_answers cfg threads capacity (fst r) rs (within rs (par_error lam threads capacity ops rs)).
Proof. exact (fun cfg k inv cf lam H1 H2 H3 H4 t Ht c ops rs r Hi Hn He => proj2 (@pt_drift cfg k inv cf lam H1 H2 H3 H4 t Ht c ops rs r Hi Hn He)). Qed.
Print Assumptions C78_any_partial.
Theorem C78_k0_partial : forall cfg cf threads capacity ops rs r, 0 < cf -> (1 <= threads)%nat -> items_of ops = map XFin rs -> rs <> [] ->
  exec (par_t_digest cfg threads capacity td_new) (pt_new td_new) ops = Ret r -> with_scale cfg k0 inv_k0 cf ->
  pv_answers cfg threads capacity (fst r) rs (within rs (par_error (fun _ => 2 / cf) threads capacity ops rs)).
Proof. exact (fun cfg cf t c ops rs r Hc Ht Hi Hn He Hw => proj2 (@pdrift_k0 cfg cf t c ops rs r Hc Ht Hi Hn He Hw)). Qed.
Print Assumptions C78_k0_partial.
Theorem C78_k1_partial : forall cfg cf threads capacity ops rs r, 0 < cf -> (1 <= threads)%nat -> items_of ops = map XFin rs -> rs <> [] ->
  exec (par_t_digest cfg threads capacity td_new) (pt_new td_new) ops = Ret r -> with_scale cfg k1 inv_k1 cf ->
  pv_answers cfg threads capacity (fst r) rs (within rs (par_error (fun _ => PI / cf) threads capacity ops rs)).
Proof. exact (fun cfg cf t c ops rs r Hc Ht Hi Hn He Hw => proj2 (@pdrift_k1 cfg cf t c ops rs r Hc Ht Hi Hn He Hw)). Qed.
Print Assumptions C78_k1_partial.
Theorem C78_k2_partial : forall cfg cf threads capacity ops rs r, 0 < cf -> (1 <= threads)%nat -> items_of ops = map XFin rs -> rs <> [] ->
  exec (par_t_digest cfg threads capacity td_new) (pt_new td_new) ops = Ret r -> with_scale cfg k2 inv_k2 cf -> 0 < den 24 cf 1 ->
  pv_answers cfg threads capacity (fst r) rs (within rs (par_error (fun n => ln 10 / 4 * (den 24 cf n / cf)) threads capacity ops rs)).
Proof. exact (fun cfg cf t c ops rs r Hc Ht Hi Hn He Hw Hd => proj2 (@pdrift_k2 cfg cf t c ops rs r Hc Ht Hi Hn He Hw Hd)). Qed.
Print Assumptions C78_k2_partial.
Theorem C78_k3_partial : forall cfg cf threads capacity ops rs r, 0 < cf -> (1 <= threads)%nat -> items_of ops = map XFin rs -> rs <> [] ->
  exec (par_t_digest cfg threads capacity td_new) (pt_new td_new) ops = Ret r -> with_scale cfg k3 inv_k3 cf -> 0 < den 21 cf 1 ->
  pv_answers cfg threads capacity (fst r) rs (within rs (par_error (fun n => ln 10 / 2 * (den 21 cf n / cf)) threads capacity ops rs)).
Proof. exact (fun cfg cf t c ops rs r Hc Ht Hi Hn He Hw Hd => proj2 (@pdrift_k3 cfg cf t c ops rs r Hc Ht Hi Hn He Hw Hd)). Qed.
Print Assumptions C78_k3_partial.
Theorem C78_k2_asym_partial : forall cfg cf threads capacity ops rs r, 0 < cf -> (1 <= threads)%nat -> items_of ops = map XFin rs -> rs <> [] ->
  exec (par_t_digest cfg threads capacity td_new) (pt_new td_new) ops = Ret r -> with_scale cfg k2_asym inv_k2_asym cf -> 0 < den 24 (cf * 2) 1 ->
  pv_answers cfg threads capacity (fst r) rs (within rs (par_error (fun n => ln 10 / 4 * (den 24 (cf * 2) n / cf)) threads capacity ops rs)).
Proof. exact (fun cfg cf t c ops rs r Hc Ht Hi Hn He Hw Hd => proj2 (@pdrift_k2_asym cfg cf t c ops rs r Hc Ht Hi Hn He Hw Hd)). Qed.
Print Assumptions C78_k2_asym_partial.

(** f64, two threads, room for 4: the value at rank 8 of 16 is 5, of ranks 8 and 9 *)
Example C78_nonvacuous : gives (par_run 2 4 8 [AddBuf (map w64 sixteen); Val (frat 1 2)]) [w64 5] = true /\
  length (filter (fun z => z <? 5)%Z sixteen) = 7%nat /\ length (filter (fun z => z <=? 5)%Z sixteen) = 9%nat.
Proof. vm_compute. auto. Qed.
