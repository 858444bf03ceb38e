(** The verifier's side of the F_p correlation generator alone, run against an arbitrary prover
    (/repo/emp-zk/emp-vole/{base_svole,mpfss_reg,spfss_sender,vole_triple}.h, the [party == ALICE] branches).

    Simplifications (besides those of VoleModel):
    - The prover is given by what it sends: the words tau of cope.h, the two words of the base check, the choice bits of
      each oblivious transfer, the challenge block and the word x_star of each MPFSS check.  It may choose each of them
      from everything it has received before; the theorems fix what it receives, so these are constants there.
    - What an oblivious transfer lets the prover learn is the message its choice bit selects (VoleModel, C18). *)
From Coq Require Import NArith List Bool Arith.
From Verif Require Import Word FpModel TreeModel VoleModel PoolModel VoleTripleModel.
Import ListNotations.

(** what the verifier draws: its key, the root of tree s of stage i (spfss_sender.h:23), and whatever the output buffer of
    main run i contains (vole_triple.h:139 does not clear it) *)
Record vworld := { v_d : N; v_seed : nat -> nat -> N; v_buf : nat -> mem }.

(** mpfss_reg.h:141-169: index of the challenge used for tree s *)
Definition chan (ts : list (nat * nat)) (s : nat) : nat := match find (fun x => fst x =? s) ts with Some x => snd x | None => 0 end.
Section Sender.
  Variables (L R : N -> N) (word : nat -> nat -> N) (threads : nat).
  (** mpfss_reg.h:100-132, party == ALICE: compute and send of every tree; result: the sparse vector, and per tree what a
      receiver with choice bits [b] obtains (one message per level, spfss_sender.h:44, and secret_sum, :45) *)
  Fixpoint snd_trees (depth : nat) (ts : list (nat * nat)) (seed : nat -> N) (b : nat -> nat -> bool) (key Y : mem)
      : mem * list (list N * N) :=
    match ts with
    | [] => (Y, [])
    | (s, _) :: ts' =>
        let '(t, m0, m1, sum) := sp_send L R depth (seed s) (key s) (view Y (s * leave_n depth)) in
        let '(Y', vs) := snd_trees depth ts' seed b key (store Y (s * leave_n depth) (leave_n depth) t) in
        (Y', (map (fun x => if b s x then m1 x else m0 x) (seq 0 (depth - 1)), sum) :: vs)
    end.
  (** mpfss_reg.h:137-169, party == ALICE: check_VW_buf; [dig c] = reduced hash of the challenge block of thread c *)
  Fixpoint snd_msgs (depth : nat) (ts : list (nat * nat)) (dig : nat -> N) (Y V : mem) : mem :=
    match ts with
    | [] => V
    | (s, c) :: ts' => snd_msgs depth ts' dig Y (mset V s (sp_V depth (dig c) (view Y (s * leave_n depth))))
    end.
  (** mpfss_reg.h:201-209 consistency_batch_check of the sender: the word whose hash is sent back (:210-213) *)
  Definition snd_reply (tree_n depth : nat) (delta : N) (dig : nat -> N) (key Y : mem) (xs : N) : N :=
    vb tree_n delta (snd_msgs depth (tree_tasks threads tree_n) dig Y (fun _ => 0%N)) (key tree_n) xs.

  Variables (pre0 pre main : lpn_param) (bits : nat -> nat -> nat -> bool) (w : vworld).
  Definition snd_sparse (p : lpn_param) (i : nat) (key Y0 : mem) : mem * list (list N * N) :=
    snd_trees (lp_log p + 1) (tree_tasks threads (lp_t p)) (v_seed w i) (bits i) key Y0.
  (** extend_send vole_triple.h:122-127 *)
  Definition snd_stage (p : lpn_param) (i : nat) (key Y0 : mem) : mem :=
    lpn_compute word (lp_k p) (lp_n p) threads true (view key (lp_t p + 1)) (fst (snd_sparse p i key Y0)).
  (** setup vole_triple.h:147-213 from the keys of the base generator *)
  Definition gen_setup (key0 : mem) : mem :=
    snd_stage pre 1 (snd_stage pre0 0 key0 (fun _ => 0%N)) (fun _ => 0%N).
  (** extend(buffer) vole_triple.h:137-145 *)
  Fixpoint gen_seeds (key0 : mem) (i : nat) : mem :=
    match i with
    | 0 => gen_setup key0
    | S i' => let k := gen_seeds key0 i' in
              memcpy k 0 (snd_stage main (i' + 2) k (v_buf w i')) (lp_limit main) (lp_M main)
    end.
  Definition gen_key (key0 : mem) (i p : nat) : N := snd_stage main (i + 2) (gen_seeds key0 i) (v_buf w i) p.
  (** parameters, input keys and buffer of stage i (0, 1: set-up; i + 2: main run i) *)
  Definition gen_par (i : nat) : lpn_param := match i with 0 => pre0 | 1 => pre | _ => main end.
  Definition gen_in (key0 : mem) (i : nat) : mem :=
    match i with 0 => key0 | 1 => snd_stage pre0 0 key0 (fun _ => 0%N) | S (S i') => gen_seeds key0 i' end.
  Definition gen_buf (i : nat) : mem := match i with S (S i') => v_buf w i' | _ => fun _ => 0%N end.
  (** what the prover learns in the trees of stage i *)
  Definition gen_view (key0 : mem) (i : nat) : list (list N * N) := snd (snd_sparse (gen_par i) i (gen_in key0 i) (gen_buf i)).
  (** the word hashed by the verifier in the check of stage i *)
  Definition gen_reply (dig : nat -> N) (key0 : mem) (i : nat) (xs : N) : N :=
    snd_reply (lp_t (gen_par i)) (lp_log (gen_par i) + 1) (v_d w) dig (gen_in key0 i)
      (fst (snd_sparse (gen_par i) i (gen_in key0 i) (gen_buf i))) xs.
End Sender.
