(** C52, GF(2^128): the multi-threaded MPFSS of emp-vole-f2k has one outcome, whatever the schedule. *)
From Coq Require Import NArith List Bool Arith Lia.
From Verif Require Import Word GF128 BoolModel TreeModel TreeSpec VoleModel VoleF2kModel MpThreadModel MpThreadSpec MpThreadDiamond MpThreadRun MpThreadTest.
From Verif Require Import VoleF2kSpec Mp2ThreadModel Mp2ThreadSpec Mp2ThreadThms.
From Verif Require PropVole PropVoleF2k PropMpThread.
Import ListNotations.

(** Starting from any memory that holds the pre-OT arrays, the base triples and equal hash objects per connection:
    in every interleaving there is no race and no deadlock, nothing is left on a connection, and both vectors and
    the verdict are those of the sequential model, in which tree s uses the digest of its connection after the
    digests of the trees before it on that connection.  The hash objects agree again afterwards. *)
Theorem C52_f2k_schedule_independent : forall cap L R H Hs D Nx threads tree_n depth rnd key val mac h d, 1 <= threads -> 2 <= depth ->
  (forall s, s < tree_n -> r_chal rnd s = tree_chal D Nx h threads tree_n s) ->
  forall m, before2 H threads tree_n depth rnd key val mac h m ->
  pair_independent cap (start m, all_threads2 L R Hs D Nx threads tree_n depth (r_seed rnd) (r_b rnd) d) (fun m' =>
    let '(Y, Z, ok) := f2_mpfss L R H Hs threads tree_n depth rnd d key val mac (fun i => m (Snd, Vec, i)) (fun i => m (Rcv, Vec, i)) in
    (forall i, m' (Snd, Vec, i) = Y i) /\ (forall i, m' (Rcv, Vec, i) = Z i) /\ m' (Rcv, Verdict, 0) = N.b2n ok /\
    forall c, c < threads -> m' (Snd, Seed, c) = m' (Rcv, Seed, c)).
Proof. intros. now apply (mpfss2_independent cap L R H Hs D Nx threads tree_n depth rnd key val mac h d). Qed.

(** With honest base correlations: in every complete interleaving the receiver accepts, and each position of the two
    vectors is a correlation on the noise value at the punctured position of its tree and on 0 elsewhere. *)
Theorem C52_f2k_every_schedule_correct : forall cap L R H Hs D Nx threads tree_n depth rnd key val mac h d, 1 <= threads -> 2 <= depth ->
  (forall s, s < tree_n -> r_chal rnd s = tree_chal D Nx h threads tree_n s) ->
  (forall i, i < (depth - 1) * tree_n -> r_ot_r rnd i = N.lxor (r_ot_s rnd i) (if r_ot_b rnd i then r_ot_delta rnd else 0%N)) ->
  (forall i, i <= tree_n -> share2 d (val i) (mac i) (key i)) ->
  forall m, before2 H threads tree_n depth rnd key val mac h m ->
  pair_independent cap (start m, all_threads2 L R Hs D Nx threads tree_n depth (r_seed rnd) (r_b rnd) d) (fun m' =>
    m' (Rcv, Verdict, 0) = 1%N /\
    forall s j, s < tree_n -> j < 2 ^ (depth - 1) ->
      share2 d (if j =? punctured (depth - 1) (r_b rnd s) then val s else 0%N)
        (m' (Rcv, Vec, s * 2 ^ (depth - 1) + j)) (m' (Snd, Vec, s * 2 ^ (depth - 1) + j))).
Proof.
  intros cap L R H Hs D Nx threads tree_n depth rnd key val mac h d Ht Hd HG HO HS m HB.
  destruct (C52_f2k_schedule_independent cap L R H Hs D Nx threads tree_n depth rnd key val mac h d Ht Hd HG m HB) as [A B C].
  constructor; [exact A|exact B|]. intros n c Hn DN. destruct (C n c Hn DN) as [E F]. split; [exact E|].
  pose proof (PropVoleF2k.C20_mpfss_honest_f2k L R H Hs threads tree_n depth rnd d key val mac Hd Ht HO HS (fun i => m (Snd, Vec, i)) (fun i => m (Rcv, Vec, i))) as T.
  destruct (f2_mpfss _ _ _ _ _ _ _ _ _ _ _ _ _ _) as [[Y Z] ok]. destruct F as (F1 & F2 & F3 & _). destruct T as [-> T]. split; [exact F3|].
  intros s j Hs0 Hj. destruct (T s j Hs0 Hj) as (T1 & _ & T3). rewrite F1, F2. rewrite <- T3. exact T1.
Qed.

(** * A case: two threads, three trees of four leaves; the second connection serves two trees *)
Definition ex_h (c : nat) : N := (40 + N.of_nat c)%N.
Definition ex_m2 (l : loc) : N :=
  match l with
  | (Rcv, Bits, i) => N.b2n (r_ot_b PropMpThread.ex_r i)
  | (Snd, Pre, i) => send_pre PropVole.exL (ot_n 3 3) (r_ot_s PropMpThread.ex_r) (r_ot_delta PropMpThread.ex_r) i
  | (Rcv, Pre, i) => recv_pre PropVole.exL (r_ot_r PropMpThread.ex_r) i
  | (Snd, Tri, i) => PropVoleF2k.ex_key2 i
  | (Rcv, Tri, i) => PropVoleF2k.ex_mac2 i
  | (Rcv, Val, i) => PropVoleF2k.ex_val2 i
  | (_, Seed, i) => ex_h i
  | (_, _, i) => N.of_nat (i + 7)
  end.
Definition ex_ps2 : tid -> prog := all_threads2 PropVole.exL PropVole.exR PropVole.exR (fun x => x) N.succ 2 3 3 (r_seed PropMpThread.ex_r) (r_b PropMpThread.ex_r) (2 ^ 127 + 5)%N.
Example C52_f2k_hypotheses : before2 PropVole.exL 2 3 3 PropMpThread.ex_r PropVoleF2k.ex_key2 PropVoleF2k.ex_val2 PropVoleF2k.ex_mac2 ex_h ex_m2 /\
  (forall s, s < 3 -> r_chal PropMpThread.ex_r s = tree_chal (fun x => x) N.succ ex_h 2 3 s) /\ map (conn 2 3) [0; 1; 2] = [0; 1; 1] /\ map (rank 2 3) [0; 1; 2] = [0; 0; 1].
Proof.
  split; [|split; [|vm_compute; auto]].
  - constructor; [constructor; reflexivity|reflexivity|]. intros [|] c _; reflexivity.
  - intros [|[|[|s]]] Hs; [reflexivity..|lia].
Qed.
Definition ts2 : list tid := [Main Snd; Main Rcv; Task Snd 1 0; Task Rcv 1 0].
Definition vecs (c : conf) : list N * list N * N :=
  (map (fun i => s_mem (fst c) (Snd, Vec, i)) (seq 0 12), map (fun i => s_mem (fst c) (Rcv, Vec, i)) (seq 0 12), s_mem (fst c) (Rcv, Verdict, 0)).
Example C52_f2k_runs :
  let a := script 1 2000 (PropMpThread.rounds 8 ts2) (start ex_m2, ex_ps2) in
  let b := script 1000 1 (PropMpThread.rounds 400 (rev ts2)) (start ex_m2, ex_ps2) in
  let '(Y, Z, ok) := f2_mpfss PropVole.exL PropVole.exR PropVole.exL PropVole.exR 2 3 3 PropMpThread.ex_r (2 ^ 127 + 5) PropVoleF2k.ex_key2 PropVoleF2k.ex_val2 PropVoleF2k.ex_mac2
    (fun i => ex_m2 (Snd, Vec, i)) (fun i => ex_m2 (Rcv, Vec, i)) in
  forallb (fun t => is_done (snd a t) && is_done (snd b t)) ts2 = true /\ vecs a = vecs b /\ vecs a = (map Y (seq 0 12), map Z (seq 0 12), 1%N) /\
  map Z (seq 0 12) <> map Y (seq 0 12).
Proof. vm_compute. repeat split; discriminate. Qed.
(** * The hypotheses are needed, and wrong programs are excluded *)
(** the hash objects of one connection differ: the receiver rejects an honest sender *)
Example C52_f2k_unequal_hashes :
  let m := fun l => match l with (Snd, Seed, 1) => 99%N | _ => ex_m2 l end in
  let a := script 1 2000 (PropMpThread.rounds 8 ts2) (start m, ex_ps2) in
  forallb (fun t => is_done (snd a t)) ts2 = true /\ s_mem (fst a) (Rcv, Verdict, 0) = 0%N.
Proof. vm_compute. split; reflexivity. Qed.
(** the pool task of the sender takes its challenge from the connection of the main thread: a race on that hash object *)
Fixpoint rehash (f : nat -> nat) (p : prog) : prog :=
  match p with
  | Done => Done
  | Read (sd, Seed, c) k => Read (sd, Seed, f c) (fun v => rehash f (k v))
  | Read l k => Read l (fun v => rehash f (k v))
  | Write (sd, Seed, c) v k => Write (sd, Seed, f c) v (rehash f k)
  | Write l v k => Write l v (rehash f k)
  | Send c v k => Send c v (rehash f k)
  | Flush c k => Flush c (rehash f k)
  | Recv c k => Recv c (fun v => rehash f (k v))
  | Signal t k => Signal t (rehash f k)
  | Await t k => Await t (rehash f k)
  end.
Example C52_f2k_one_hash_refuted : forall Q,
  ~ pair_independent 1000 (start ex_m2, upd ex_ps2 (Task Snd 1 0) (rehash (fun _ => 1) (ex_ps2 (Task Snd 1 0)))) Q.
Proof.
  intro Q. apply (race_refutes 1000 _ [(Main Rcv, never); (Main Snd, at_write (Snd, Seed, 1)); (Task Snd 1 0, at_write (Snd, Seed, 1))] 2000 Q (Main Snd) (Task Snd 1 0)); [discriminate|].
  vm_compute. reflexivity.
Qed.
(** the pool task of the sender does not flush its connection *)
Example C52_f2k_no_flush_refuted : forall Q,
  ~ pair_independent 1000 (start ex_m2, upd ex_ps2 (Task Snd 1 0) (no_flush (ex_ps2 (Task Snd 1 0)))) Q.
Proof.
  intro Q. apply (stuck_refutes 1000 _ (PropMpThread.rounds 8 ts2) 2000 Q (Main Rcv)); [|vm_compute; reflexivity|vm_compute; reflexivity].
  intros t Ht. assert (Ht' : ~ In t ts2) by (intro X; apply Ht; vm_compute; vm_compute in X; tauto).
  destruct t as [[|]|sd ph i]; try (exfalso; apply Ht'; vm_compute; tauto). cbn [snd]. unfold upd. destruct (tid_dec _ _) as [E|]; [exfalso; apply Ht'; rewrite E; vm_compute; tauto|].
  cbn [ex_ps2 all_threads2]. unfold ex_ps2, all_threads2. destruct (ph =? 1) eqn:E; [|reflexivity]. destruct i as [|i]; [|reflexivity].
  exfalso. apply Ht'. rewrite !Nat.eqb_eq in E. destruct sd; subst; vm_compute; tauto.
Qed.

Print Assumptions C52_f2k_schedule_independent.
Print Assumptions C52_f2k_every_schedule_correct.
