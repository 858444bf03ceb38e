(** C52: the multi-threaded MPFSS of both parties has one outcome, whatever the schedule of the threads and the
    buffering of the connections. *)
From Coq Require Import NArith List Bool Arith Lia.
From Verif Require Import Word FpModel ArithSpec TreeModel TreeSpec VoleModel VoleSpec MpfssProofs MpThreadModel MpThreadSpec MpThreadDiamond MpThreadRun MpThreadThms MpThreadTest.
From Verif Require PropVole.
Import ListNotations.

(** Starting from any memory that holds the pre-OT arrays and the base triples, in every interleaving of the two
    main threads and all pool tasks: no data race, no deadlock, all executions equally long, nothing left on a
    connection, and both vectors and the verdict are those of the sequential model. *)
Theorem C52_schedule_independent : forall cap L R H Hs G threads tree_n depth rnd key mac delta x, 1 <= threads -> 2 <= depth ->
  (forall c, r_chal rnd c = G x c) -> forall m, before H tree_n depth rnd key mac m ->
  pair_independent cap (start m, all_threads L R Hs G threads tree_n depth (r_seed rnd) (r_b rnd) delta x) (fun m' =>
    let '(Y, Z, ok) := mpfss_pair L R H Hs threads tree_n depth rnd delta key mac (fun i => m (Snd, Vec, i)) (fun i => m (Rcv, Vec, i)) in
    (forall i, m' (Snd, Vec, i) = Y i) /\ (forall i, m' (Rcv, Vec, i) = Z i) /\ m' (Rcv, Verdict, 0) = N.b2n ok).
Proof. intros. now apply mpfss_independent. Qed.

(** With honest base correlations: in every complete interleaving the receiver accepts, every position of the two
    vectors is a correlation, and the values are the noise values at the punctured positions and 0 elsewhere. *)
Theorem C52_every_schedule_correct : forall cap L R H Hs G threads tree_n depth rnd key mac delta x, 1 <= threads -> 2 <= depth -> (delta < prm)%N ->
  (forall c, r_chal rnd c = G x c) ->
  (forall i, i < (depth - 1) * tree_n -> r_ot_r rnd i = N.lxor (r_ot_s rnd i) (if r_ot_b rnd i then r_ot_delta rnd else 0%N)) ->
  (forall i, i <= tree_n -> share_ok delta (mac i) (key i)) ->
  forall m, before H tree_n depth rnd key mac m ->
  pair_independent cap (start m, all_threads L R Hs G threads tree_n depth (r_seed rnd) (r_b rnd) delta x) (fun m' =>
    m' (Rcv, Verdict, 0) = 1%N /\
    forall s j, s < tree_n -> j < 2 ^ (depth - 1) ->
      share_ok delta (m' (Rcv, Vec, s * 2 ^ (depth - 1) + j)) (m' (Snd, Vec, s * 2 ^ (depth - 1) + j)) /\
      xval (m' (Rcv, Vec, s * 2 ^ (depth - 1) + j)) = if j =? punctured (depth - 1) (r_b rnd s) then xval (mac s) else 0%N).
Proof.
  intros cap L R H Hs G threads tree_n depth rnd key mac delta x Ht Hd Hdel HG HO HS m HB.
  destruct (C52_schedule_independent cap L R H Hs G threads tree_n depth rnd key mac delta x Ht Hd HG m HB) as [A B C].
  constructor; [exact A|exact B|]. intros n c Hn D. destruct (C n c Hn D) as [E F]. split; [exact E|].
  pose proof (PropVole.C20_mpfss_honest L R H Hs threads tree_n depth rnd delta key mac Hd Ht Hdel HO HS (fun i => m (Snd, Vec, i)) (fun i => m (Rcv, Vec, i))) as T.
  destruct (mpfss_pair _ _ _ _ _ _ _ _ _ _ _ _ _) as [[Y Z] ok]. destruct F as (F1 & F2 & F3). destruct T as [-> T]. split; [exact F3|].
  intros s j Hs0 Hj. destruct (T s j Hs0 Hj) as (T1 & T2 & T3). rewrite F1, F2. auto.
Qed.

(** * A case: two threads, three trees of four leaves *)
Definition ex_G (x : N) (c : nat) : N := (x + N.of_nat c)%N.
Definition ex_r : trand := PropVole.ex_rnd 1000.
Definition ex_m (l : loc) : N :=
  match l with
  | (Rcv, Bits, i) => N.b2n (r_ot_b ex_r i)
  | (Snd, Pre, i) => send_pre PropVole.exL (ot_n 3 3) (r_ot_s ex_r) (r_ot_delta ex_r) i
  | (Rcv, Pre, i) => recv_pre PropVole.exL (r_ot_r ex_r) i
  | (Snd, Tri, i) => PropVole.ex_key i
  | (Rcv, Tri, i) => PropVole.ex_mac i
  | (_, _, i) => N.of_nat (i + 7)
  end.
Definition ex_ps : tid -> prog := all_threads PropVole.exL PropVole.exR PropVole.exR ex_G 2 3 3 (r_seed ex_r) (r_b ex_r) 1000 40.
Example C52_hypotheses : before PropVole.exL 3 3 ex_r PropVole.ex_key PropVole.ex_mac ex_m /\ (forall c, r_chal ex_r c = ex_G 40 c).
Proof. split; [constructor; reflexivity|]. intro c. unfold ex_r, ex_G. cbn [PropVole.ex_rnd r_chal]. rewrite Nnat.Nat2N.inj_add. apply N.add_comm. Qed.
Definition ts : list tid := [Main Snd; Main Rcv; Task Snd 1 0; Task Rcv 1 0; Task Snd 2 0; Task Rcv 2 0].
Definition rounds (n : nat) (l : list tid) : list (tid * (prog -> bool)) := concat (repeat (map (fun t => (t, never)) l) n).
(** two very different schedules and buffer sizes, run to the end *)
Example C52_runs : 
  let a := script 1 2000 (rounds 8 ts) (start ex_m, ex_ps) in
  let b := script 1000 1 (rounds 400 (rev ts)) (start ex_m, ex_ps) in
  let v c := (map (fun i => s_mem (fst c) (Snd, Vec, i)) (seq 0 12), map (fun i => s_mem (fst c) (Rcv, Vec, i)) (seq 0 12), s_mem (fst c) (Rcv, Verdict, 0)) in
  let '(Y, Z, ok) := mpfss_pair PropVole.exL PropVole.exR PropVole.exL PropVole.exR 2 3 3 ex_r 1000 PropVole.ex_key PropVole.ex_mac (fun i => ex_m (Snd, Vec, i)) (fun i => ex_m (Rcv, Vec, i)) in
  forallb (fun t => is_done (snd a t) && is_done (snd b t)) ts = true /\ v a = v b /\ v a = (map Y (seq 0 12), map Z (seq 0 12), 1%N) /\
  map Z (seq 0 12) <> map (fun i => ex_m (Rcv, Vec, i)) (seq 0 12) /\ map Z (seq 0 12) <> map Y (seq 0 12).
Proof. vm_compute. repeat split; discriminate. Qed.

(** * Wrong programs that the property excludes *)
(** the pool task of the sender sends on the connection of the main thread: a race *)
Example C52_one_connection_refuted : forall Q,
  ~ pair_independent 1000 (start ex_m, upd ex_ps (Task Snd 1 0) (rechannel (fun _ => 1) (ex_ps (Task Snd 1 0)))) Q.
Proof.
  intro Q. apply (race_refutes 1000 _ [(Main Rcv, never); (Main Snd, at_send (Snd, 1)); (Task Snd 1 0, at_send (Snd, 1))] 2000 Q (Main Snd) (Task Snd 1 0)); [discriminate|].
  vm_compute. reflexivity.
Qed.
(** the pool task of the sender does not flush its connection: with a large buffer the parties wait forever *)
Example C52_no_flush_refuted : forall Q,
  ~ pair_independent 1000 (start ex_m, upd ex_ps (Task Snd 1 0) (no_flush (ex_ps (Task Snd 1 0)))) Q.
Proof.
  intro Q. apply (stuck_refutes 1000 _ (rounds 8 ts) 2000 Q (Main Rcv)); [|vm_compute; reflexivity|vm_compute; reflexivity].
  intros t Ht. assert (Ht' : ~ In t ts) by (intro X; apply Ht; vm_compute; vm_compute in X; tauto).
  destruct t as [[|]|sd ph i]; try (exfalso; apply Ht'; vm_compute; tauto). cbn [snd]. unfold upd. destruct (tid_dec _ _) as [E|]; [exfalso; apply Ht'; rewrite E; vm_compute; tauto|].
  cbn [ex_ps all_threads]. unfold ex_ps, all_threads. destruct ((ph =? 1) || (ph =? 2)) eqn:E; [|reflexivity]. destruct i as [|i]; [|reflexivity].
  exfalso. apply Ht'. apply orb_true_iff in E. rewrite !Nat.eqb_eq in E. destruct sd, E; subst; vm_compute; tauto.
Qed.
(** the receiver's main thread does not wait for its tasks: it reads check_VW_buf while a task writes it *)
Example C52_no_get_refuted : forall Q,
  ~ pair_independent 1000 (start ex_m, upd ex_ps (Main Rcv) (no_get (ex_ps (Main Rcv)))) Q.
Proof.
  intro Q. apply (race_refutes 1000 _ [(Main Rcv, never); (Main Snd, never); (Task Snd 1 0, never); (Task Rcv 1 0, never); (Main Rcv, at_read (Rcv, Buf, 0));
     (Task Rcv 2 0, at_write (Rcv, Buf, 0))] 2000 Q (Main Rcv) (Task Rcv 2 0)); [discriminate|].
  vm_compute. reflexivity.
Qed.

Print Assumptions C52_schedule_independent.
Print Assumptions C52_every_schedule_correct.
