(** The multi-threaded execution of /repo/emp-zk/emp-vole/mpfss_reg.h by both parties: main threads, tasks of
    the thread pool, shared memory, and the connections ios[0..threads) between the parties.

    Every thread is a program of single actions.  A send goes into the output buffer of the connection; the
    buffer is handed to the network when it holds [cap] items (any value) or at a flush.  A receive waits until
    the network has delivered an item.  pool->enqueue and future::get are actions too: a task waits for its
    start, and get() waits for the end of the task.
    Simplifications:
    - a tree reads its slice of the sparse vector at once, computes with the functions of VoleModel and writes
      the slice back cell by cell; that no other thread touches a cell that is in use is a theorem;
    - members of one SpfssSenderFp/SpfssRecverFp object (m, b, share, secret_sum, choice_pos) and ggm_tree[i]
      belong to one tree and are part of the program of the thread that works on it;
    - the pool has a free worker for every task (vole_triple.h:70 creates [threads] workers, mpfss() enqueues
      threads-1 tasks at a time), and a task of the second phase is a separate thread;
    - NetIO also empties its output buffer before it receives; not assumed here;
    - each item sent is one number, whatever its size. *)
From Coq Require Import NArith List Bool Arith.
From Verif Require Import Word FpModel TreeModel VoleModel.
Import ListNotations.

Inductive side := Snd | Rcv.
(** OTPre::bits, OTPre::pre_data, triple_yz, triple_x (GF(2^128) only), sparse_vector, check_VW_buf,
    check_chialpha_buf, seed (over GF(2^128): the hash state of the connection), and the outcome of the batch check *)
Inductive cell := Bits | Pre | Tri | Val | Vec | Buf | Chi | Seed | Verdict.
Definition loc : Type := (side * cell * nat)%type.
(** the direction of ios[k] in which [side] sends *)
Definition chan : Type := (side * nat)%type.
(** task [i] of phase [ph] may start / has ended *)
Inductive tok := Go (sd : side) (ph i : nat) | Back (sd : side) (ph i : nat).
Inductive tid := Main (sd : side) | Task (sd : side) (ph i : nat).

Definition side_dec (a b : side) : {a = b} + {a <> b}. Proof. decide equality. Defined.
Definition loc_dec (a b : loc) : {a = b} + {a <> b}. Proof. repeat decide equality. Defined.
Definition chan_dec (a b : chan) : {a = b} + {a <> b}. Proof. repeat decide equality. Defined.
Definition tok_dec (a b : tok) : {a = b} + {a <> b}. Proof. repeat decide equality. Defined.
Definition tid_dec (a b : tid) : {a = b} + {a <> b}. Proof. repeat decide equality. Defined.

Inductive prog : Type :=
| Done
| Read (l : loc) (k : N -> prog)
| Write (l : loc) (v : N) (k : prog)
| Send (c : chan) (v : N) (k : prog)
| Flush (c : chan) (k : prog)
| Recv (c : chan) (k : N -> prog)
| Signal (t : tok) (k : prog)
| Await (t : tok) (k : prog).

Record st := { s_mem : loc -> N; s_out : chan -> list N; s_net : chan -> list N; s_tok : tok -> nat }.
Definition set_mem (s : st) (l : loc) (v : N) : st :=
  {| s_mem := fun x => if loc_dec x l then v else s_mem s x; s_out := s_out s; s_net := s_net s; s_tok := s_tok s |}.
Definition set_out (s : st) (c : chan) (v : list N) : st :=
  {| s_mem := s_mem s; s_out := fun x => if chan_dec x c then v else s_out s x; s_net := s_net s; s_tok := s_tok s |}.
Definition set_net (s : st) (c : chan) (v : list N) : st :=
  {| s_mem := s_mem s; s_out := s_out s; s_net := fun x => if chan_dec x c then v else s_net s x; s_tok := s_tok s |}.
Definition set_tok (s : st) (t : tok) (v : nat) : st :=
  {| s_mem := s_mem s; s_out := s_out s; s_net := s_net s; s_tok := fun x => if tok_dec x t then v else s_tok s x |}.

(** one action of one thread; [None] = it has ended or has to wait *)
Definition flush (s : st) (c : chan) : st := set_out (set_net s c (s_net s c ++ s_out s c)) c [].
Definition send (cap : nat) (s : st) (c : chan) (v : N) : st :=
  let s' := set_out s c (s_out s c ++ [v]) in
  if Nat.leb cap (length (s_out s' c)) then flush s' c else s'.
Definition act (cap : nat) (s : st) (p : prog) : option (st * prog) :=
  match p with
  | Done => None
  | Read l k => Some (s, k (s_mem s l))
  | Write l v k => Some (set_mem s l v, k)
  | Send c v k => Some (send cap s c v, k)
  | Flush c k => Some (flush s c, k)
  | Recv c k => match s_net s c with [] => None | v :: vs => Some (set_net s c vs, k v) end
  | Signal t k => Some (set_tok s t (S (s_tok s t)), k)
  | Await t k => match s_tok s t with 0 => None | S n => Some (set_tok s t n, k) end
  end.
(** all threads; one step lets any one of them act *)
Definition conf : Type := (st * (tid -> prog))%type.
Definition upd (ps : tid -> prog) (t : tid) (p : prog) : tid -> prog := fun x => if tid_dec x t then p else ps x.
Definition step (cap : nat) (t : tid) (c c' : conf) : Prop :=
  exists p', act cap (fst c) (snd c t) = Some (fst c', p') /\ forall x, snd c' x = upd (snd c) t p' x.
Inductive steps (cap : nat) : nat -> conf -> conf -> Prop :=
| steps_0 c : steps cap 0 c c
| steps_S n t c c' c'' : step cap t c c' -> steps cap n c' c'' -> steps cap (S n) c c''.
Definition all_done (ps : tid -> prog) : Prop := forall t, ps t = Done.

(** * Arrays *)
Fixpoint read_from (sd : side) (a : cell) (i n : nat) (k : list N -> prog) : prog :=
  match n with
  | 0 => k []
  | S n' => Read (sd, a, i) (fun v => read_from sd a (S i) n' (fun vs => k (v :: vs)))
  end.
Fixpoint write_from (sd : side) (a : cell) (i : nat) (vs : list N) (k : prog) : prog :=
  match vs with [] => k | v :: vs' => Write (sd, a, i) v (write_from sd a (S i) vs' k) end.
Definition bit_of (v : N) : bool := negb (N.eqb v 0).
Definition cells (vs : list N) : mem := fun i => nth i vs 0%N.

(** * Parallel phases: [item sd ph ch s] is what party sd does for tree s on connection ch in phase ph *)
Section Phase.
  Variables (threads tree_n : nat) (item : side -> nat -> nat -> nat -> prog -> prog).
  Fixpoint p_items (sd : side) (ph ch : nat) (ss : list nat) (c : prog) : prog :=
    match ss with [] => c | s :: ss' => item sd ph ch s (p_items sd ph ch ss' c) end.

  (** mpfss_reg.h:98-117 (phase 1), :141-160 (phase 2), emp-vole-f2k/mpfss.h:104-134: the tasks, and the range of the
      main thread *)
  Definition width : nat := tree_n / threads.
  Definition range_of (i : nat) : list nat := seq (i * width) width.
  Definition last_range : list nat := seq ((threads - 1) * width) (tree_n - (threads - 1) * width).
  Definition p_task (sd : side) (ph i : nat) : prog :=
    Await (Go sd ph i) (p_items sd ph (i * width / width) (range_of i) (Signal (Back sd ph i) Done)).
  Fixpoint p_enqueue (sd : side) (ph i n : nat) (c : prog) : prog :=
    match n with 0 => c | S n' => Signal (Go sd ph i) (p_enqueue sd ph (S i) n' c) end.
  Fixpoint p_get (sd : side) (ph i n : nat) (c : prog) : prog :=
    match n with 0 => c | S n' => Await (Back sd ph i) (p_get sd ph (S i) n' c) end.
  Definition p_phase (sd : side) (ph : nat) (c : prog) : prog :=
    p_enqueue sd ph 0 (threads - 1) (p_items sd ph (threads - 1) last_range (p_get sd ph 0 (threads - 1) c)).
End Phase.

Section Mpfss.
  Variables (L R Hs : N -> N) (G : N -> nat -> N).  (* tree PRP, hash, PRG of seed_expand *)
  Variables (threads tree_n depth : nat).
  Variables (seed : nat -> N) (b : nat -> nat -> bool) (delta sd : N).  (* root of each tree, choice bits, Delta, the block drawn in seed_expand *)
  Notation lv := (leave_n depth).
  Notation len := (depth - 1).

  (** * preot.h *)
  (** :59-62 loop of choices_recver *)
  Fixpoint p_flip (n k i : nat) (bs : nat -> bool) (c : prog) : prog :=
    match n with
    | 0 => c
    | S n' => Read (Rcv, Bits, k) (fun v => Write (Rcv, Bits, k) (N.b2n (xorb (bs i) (bit_of v))) (p_flip n' (S k) (S i) bs c))
    end.
  Fixpoint p_send_bits (n k : nat) (c : prog) : prog :=
    match n with 0 => c | S n' => Read (Rcv, Bits, k) (fun v => Send (Rcv, 0) v (p_send_bits n' (S k) c)) end.
  (** mpfss_reg.h:85-95 receiver: :63 send_data after each flip loop *)
  Fixpoint p_choices_r (times s count : nat) (c : prog) : prog :=
    match times with
    | 0 => c
    | S t => p_flip len count 0 (b s) (p_send_bits len count (p_choices_r t (S s) (count + len) c))
    end.
  (** preot.h:54-57 choices_sender, mpfss_reg.h:85-95 sender *)
  Fixpoint p_recv_bits (n k : nat) (c : prog) : prog :=
    match n with 0 => c | S n' => Recv (Rcv, 0) (fun v => Write (Snd, Bits, k) v (p_recv_bits n' (S k) c)) end.
  Fixpoint p_choices_s (times count : nat) (c : prog) : prog :=
    match times with 0 => c | S t => p_recv_bits len count (p_choices_s t (count + len) c) end.
  (** preot.h:69-86 send *)
  Fixpoint p_ot_send (ch n k i : nat) (m0 m1 : mem) (c : prog) : prog :=
    match n with
    | 0 => c
    | S n' =>
        Read (Snd, Bits, k) (fun v =>
        if negb (bit_of v)
        then Read (Snd, Pre, k) (fun p0 => Read (Snd, Pre, k + ot_n tree_n depth) (fun p1 =>
             Send (Snd, ch) (N.lxor (m0 i) p0) (Send (Snd, ch) (N.lxor (m1 i) p1) (p_ot_send ch n' (S k) (S i) m0 m1 c))))
        else Read (Snd, Pre, k + ot_n tree_n depth) (fun p0 => Read (Snd, Pre, k) (fun p1 =>
             Send (Snd, ch) (N.lxor (m0 i) p0) (Send (Snd, ch) (N.lxor (m1 i) p1) (p_ot_send ch n' (S k) (S i) m0 m1 c)))))
    end.
  (** preot.h:88-97 recv *)
  Fixpoint p_ot_recv (ch n k i : nat) (bs : nat -> bool) (data : mem) (c : mem -> prog) : prog :=
    match n with
    | 0 => c data
    | S n' =>
        Recv (Snd, ch) (fun a0 => Recv (Snd, ch) (fun a1 =>
        Read (Rcv, Pre, k) (fun p =>
        p_ot_recv ch n' (S k) (S i) bs (mset data i (N.lxor p (if bs i then a1 else a0))) c)))
    end.

  (** * one tree: mpfss_reg.h:103-108 / :121-125 sender, :109-114 / :126-130 receiver *)
  Definition p_tree_s (ch s : nat) (c : prog) : prog :=
    Read (Snd, Tri, s) (fun gamma =>
    read_from Snd Vec (s * lv) lv (fun vs =>
    let '(t, m0, m1, sum) := sp_send L R depth (seed s) gamma (cells vs) in
    write_from Snd Vec (s * lv) (slice t lv) (
    p_ot_send ch len (s * len) 0 m0 m1 (
    Send (Snd, ch) sum (Flush (Snd, ch) (Flush (Snd, ch) c)))))).
  Definition p_tree_r (ch s : nat) (c : prog) : prog :=
    p_ot_recv ch len (s * len) 0 (b s) (fun _ => 0%N) (fun m =>
    Recv (Snd, ch) (fun share =>
    Read (Rcv, Tri, s) (fun delta2 =>
    read_from Rcv Vec (s * lv) lv (fun vs =>
    write_from Rcv Vec (s * lv) (slice (sp_recv L R depth (b s) m share delta2 (cells vs)) lv) (
    Flush (Rcv, ch) c))))).
  (** * consistency_check_msg_gen: spfss_sender.h:107-119, spfss_recver.h:142-160; [c] indexes seed[] *)
  Definition dig (x : N) : N := mod1 (lo64 (Hs x)).
  Definition p_msg_s (c s : nat) (k : prog) : prog :=
    Read (Snd, Seed, c) (fun x =>
    read_from Snd Vec (s * lv) lv (fun vs =>
    Write (Snd, Buf, s) (sp_V depth (dig x) (cells vs)) k)).
  Definition p_msg_r (c s : nat) (k : prog) : prog :=
    Read (Rcv, Tri, s) (fun beta => Read (Rcv, Seed, c) (fun x =>
    Write (Rcv, Chi, s) (sp_chi_alpha depth (dig x) (b s)) (
    read_from Rcv Vec (s * lv) lv (fun vs =>
    Write (Rcv, Buf, s) (sp_V depth (dig x) (cells vs)) (
    Read (Rcv, Vec, s * lv + get_index depth (b s)) (fun v =>
    Write (Rcv, Vec, s * lv + get_index depth (b s)) (N.lxor (mkblock (hi64 beta) 0) v) k)))))).
  Definition p_item (sd : side) (ph ch s : nat) (c : prog) : prog :=
    match sd, ph with
    | Snd, 1 => p_tree_s ch s c
    | Rcv, 1 => p_tree_r ch s c
    | Snd, _ => p_msg_s ch s c
    | Rcv, _ => p_msg_r ch s c
    end.
  (** mpfss_reg.h:188-199 seed_expand *)
  Definition p_seeds (sd : side) (x : N) (c : prog) : prog := write_from sd Seed 0 (map (G x) (seq 0 threads)) c.
  Definition p_seed_s (c : prog) : prog := Recv (Rcv, 0) (fun x => p_seeds Snd x c).
  Definition p_seed_r (c : prog) : prog := Send (Rcv, 0) sd (Flush (Rcv, 0) (p_seeds Rcv sd c)).
  (** mpfss_reg.h:201-214 and :216-238 consistency_batch_check; the verdict is left in memory, error() would
      stop the program here *)
  Definition p_batch_s (c : prog) : prog :=
    Read (Snd, Tri, tree_n) (fun y =>
    Recv (Rcv, 0) (fun xs =>
    read_from Snd Buf 0 tree_n (fun V =>
    Send (Snd, 0) (Hs (vb tree_n delta (cells V) y xs)) (Flush (Snd, 0) c)))).
  Definition p_batch_r (c : prog) : prog :=
    Read (Rcv, Tri, tree_n) (fun z =>
    read_from Rcv Tri 0 tree_n (fun macs => read_from Rcv Chi 0 tree_n (fun X =>
    Send (Rcv, 0) (x_star tree_n (cells macs) (cells X) z) (Flush (Rcv, 0) (
    read_from Rcv Buf 0 tree_n (fun W =>
    Recv (Snd, 0) (fun r =>
    Write (Rcv, Verdict, 0) (N.b2n (N.eqb r (Hs (va tree_n (cells W) z)))) c))))))).

  Notation phase := (p_phase threads tree_n p_item).
  (** mpfss_reg.h:81-186 (is_malicious set, as vole_triple.h does); :94 netio->flush *)
  Definition p_main (sd : side) : prog :=
    match sd with
    | Snd => p_choices_s tree_n 0 (Flush (Snd, 0) (phase Snd 1 (p_seed_s (phase Snd 2 (p_batch_s Done)))))
    | Rcv => p_choices_r tree_n 0 0 (Flush (Rcv, 0) (phase Rcv 1 (p_seed_r (phase Rcv 2 (p_batch_r Done)))))
    end.
  Definition all_threads (t : tid) : prog :=
    match t with
    | Main sd => p_main sd
    | Task sd ph i => if (Nat.eqb ph 1 || Nat.eqb ph 2) && Nat.ltb i (threads - 1) then p_task threads tree_n p_item sd ph i else Done
    end.
End Mpfss.
