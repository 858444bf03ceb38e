(** The prover's half of the correlation generators run against a verifier that sends arbitrary messages
    (/repo/emp-zk/emp-vole-f2k/{mpfss,spfss_f2k_sender,spfss_f2k_recver}.h, emp-vole/{mpfss_reg,spfss_sender,spfss_recver}.h).
    The verifier plays the MPFSS sender.  Simplification: of the two messages of an oblivious transfer the prover obtains the
    one its choice bit selects (VoleModel, C18). *)
From Coq Require Import NArith List Bool Arith.
From Verif Require Import Word FpModel GF128 BoolModel TreeModel VoleModel PoolModel VoleTripleModel VoleF2kModel CheatF2kModel.
Import ListNotations.

(** what a sender puts on the channel for one tree: two messages per level and secret_sum *)
Record tmsg := { q_m0 : mem; q_m1 : mem; q_sum : N }.
(** what the prover obtains: spfss_f2k_recver.h:38-41, spfss_recver.h:44-47 *)
Definition view_of (depth : nat) (b : nat -> bool) (g : tmsg) : list N * N :=
  (map (fun x => if b x then q_m1 g x else q_m0 g x) (seq 0 (depth - 1)), q_sum g).

(** * GF(2^128) *)
(** the messages of the code, spfss_f2k_sender.h:27-38 *)
Definition code_msg (L R : N -> N) (depth : nat) (seed gamma : N) (t0 : mem) : tmsg :=
  let '(_, m0, m1, sum) := f2_send L R depth seed gamma t0 in {| q_m0 := m0; q_m1 := m1; q_sum := sum |}.
(** mpfss.h:196-206, prover: check_VW_buf of all trees (spfss_f2k_recver.h:97-98 is the sum of the sender's code), va, and the
    comparison with the received block; false = error() *)
Definition r2_accepts (Hs : N -> N) (threads : nat) (p : lpn_param) (dig : nat -> N) (mac Z : mem) (reply : N) : bool :=
  let W := s2_msgs (lp_log p + 1) (tree_tasks threads (lp_t p)) dig Z (fun _ => 0%N) in
  N.eqb reply (Hs (f2_va (lp_t p) W (mac (lp_t p)))).

(** * F_p, all trees in one thread (one challenge) *)
(** spfss_recver.h:44-67: leaves of tree s *)
Definition p_leaves (L R : N -> N) (depth : nat) (b : nat -> bool) (g : tmsg) (mac : N) (t0 : mem) : mem :=
  let v := view_of depth b g in sp_recv L R depth b (fun x => nth x (fst v) 0%N) (snd v) mac t0.
(** mpfss_reg.h:216-226: the word sent to the verifier *)
Definition p_star (tree_n depth : nat) (dig : N) (b : nat -> nat -> bool) (mac : mem) (z : N) : N :=
  x_star tree_n mac (fun s => sp_chi_alpha depth dig (b s)) z.
(** mpfss_reg.h:228-237 *)
Definition p_accepts (L R Hs : N -> N) (tree_n depth : nat) (dig : N) (b : nat -> nat -> bool) (g : nat -> tmsg) (mac : mem) (z : N)
    (t0 : nat -> mem) (reply : N) : bool :=
  N.eqb reply (Hs (va tree_n (fun s => sp_V depth dig (p_leaves L R depth (b s) (g s) (mac s) (t0 s))) z)).
