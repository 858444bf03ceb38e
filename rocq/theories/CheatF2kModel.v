(** The two sides of the GF(2^128) correlation generator, each run alone
    (/repo/emp-zk/emp-vole-f2k/{mpfss,spfss_f2k_sender,spfss_f2k_recver,svole}.h).

    BOB, the verifier, plays the MPFSS sender; ALICE, the prover, the MPFSS receiver (svole.h:115, :178 with party 3 - party).
    Simplifications (besides those of VoleF2kModel):
    - The verifier's side depends on the prover only through the choice bits of the oblivious transfers and the word x_star of
      each MPFSS check (mpfss.h:172-173).  Both are arguments here and need not be what the code would send.
    - What an oblivious transfer lets the prover learn is the message its choice bit selects (VoleModel, C18).
    - Challenge blocks: [dig i s] is the hash of ios[..]->get_hash_block() in tree s of stage i (spfss_f2k_sender.h:66-69). *)
From Coq Require Import NArith List Bool Arith.
From Verif Require Import Word GF128 BoolModel TreeModel VoleModel PoolModel VoleTripleModel VoleF2kModel.
Import ListNotations.

(** what the verifier holds: its key, the root of tree s of stage i (spfss_f2k_sender.h:21), the COT blocks of ferret->rcot
    (base_svole.h:30), and whatever the output buffer of main run i contains *)
Record kworld := { k_d : N; k_cot : mem; k_seed : nat -> nat -> N; k_buf : nat -> mem }.

Section Generator.
  Variables (L R : N -> N) (word : nat -> nat -> N) (threads : nat) (pre main : lpn_param).
  Variable bits : nat -> nat -> nat -> bool.               (* choice bits: stage, tree, level *)

  (** ** the verifier *)
  (** mpfss.h:105-155, party == ALICE (sender): result: the sparse vector, and per tree what the prover obtains (one message
      per level, spfss_f2k_sender.h:34-38, and secret_sum) *)
  Fixpoint s2_trees (depth : nat) (ts : list (nat * nat)) (seed : nat -> N) (b : nat -> nat -> bool) (key Y : mem)
      : mem * list (list N * N) :=
    match ts with
    | [] => (Y, [])
    | (s, _) :: ts' =>
        let '(t, m0, m1, sum) := f2_send L R depth (seed s) (key s) (view Y (s * leave_n depth)) in
        let '(Y', vs) := s2_trees depth ts' seed b key (store Y (s * leave_n depth) (leave_n depth) t) in
        (Y', (map (fun x => if b s x then m1 x else m0 x) (seq 0 (depth - 1)), sum) :: vs)
    end.
  (** spfss_f2k_sender.h:65-76 for every tree: check_VW_buf *)
  Fixpoint s2_msgs (depth : nat) (ts : list (nat * nat)) (dig : nat -> N) (Y V : mem) : mem :=
    match ts with
    | [] => V
    | (s, _) :: ts' => s2_msgs depth ts' dig Y (mset V s (f2_V depth (dig s) (view Y (s * leave_n depth))))
    end.
  Section World.
    Variable w : kworld.
    Definition s2_sparse (p : lpn_param) (i : nat) (key Y0 : mem) : mem * list (list N * N) :=
      s2_trees (lp_log p + 1) (tree_tasks threads (lp_t p)) (k_seed w i) (bits i) key Y0.
    (** svole.h:134-139 extend_recv *)
    Definition s2_stage (p : lpn_param) (i : nat) (key Y0 : mem) : mem :=
      f2_lpn word (lp_k p) (lp_n p) threads (view key (lp_t p)) (fst (s2_sparse p i key Y0)).
    (** svole.h:152-200 setup (pre_yz is cleared, :165), :141-150 extend *)
    Definition s2_base : mem := f2_base_mac (k_cot w).
    Fixpoint s2_seeds (i : nat) : mem :=
      match i with
      | 0 => s2_stage pre 0 s2_base (fun _ => 0%N)
      | S i' => let k := s2_seeds i' in memcpy k 0 (s2_stage main (i' + 1) k (k_buf w i')) (lp_limit main) (lp_M main)
      end.
    Definition s2_key (i p : nat) : N := s2_stage main (i + 1) (s2_seeds i) (k_buf w i) p.
    (** parameters, input keys and output buffer of stage i (0: set-up; i + 1: main run i) *)
    Definition s2_par (i : nat) : lpn_param := match i with 0 => pre | S _ => main end.
    Definition s2_in (i : nat) : mem := match i with 0 => s2_base | S i' => s2_seeds i' end.
    Definition s2_buf (i : nat) : mem := match i with 0 => fun _ => 0%N | S i' => k_buf w i' end.
    (** what the prover learns in the trees of stage i *)
    Definition s2_view (i : nat) : list (list N * N) := snd (s2_sparse (s2_par i) i (s2_in i) (s2_buf i)).
    (** mpfss.h:171-180: the block hashed by the verifier in the check of stage i, on the word [xs] *)
    Definition s2_reply (dig : nat -> nat -> N) (i : nat) (xs : N) : N :=
      let p := s2_par i in
      f2_vb (lp_t p) (k_d w)
        (s2_msgs (lp_log p + 1) (tree_tasks threads (lp_t p)) (dig i) (fst (s2_sparse p i (s2_in i) (s2_buf i))) (fun _ => 0%N))
        (s2_in i (lp_t p)) xs.
  End World.

  (** ** the prover's code, on what it received *)
  Variables (views : nat -> list (list N * N)) (cot : mem) (zbuf : nat -> mem).
  (** mpfss.h:105-155, party == BOB (receiver) *)
  Fixpoint r2_trees (depth : nat) (ts : list (nat * nat)) (b : nat -> nat -> bool) (vs : list (list N * N)) (mac Z : mem) : mem :=
    match ts with
    | [] => Z
    | (s, _) :: ts' =>
        let v := nth s vs ([], 0%N) in
        let t := f2_recv L R depth (b s) (fun x => nth x (fst v) 0%N) (snd v) (mac s) (view Z (s * leave_n depth)) in
        r2_trees depth ts' b vs mac (store Z (s * leave_n depth) (leave_n depth) t)
    end.
  (** set_vec_x mpfss.h:66-73 looks only at the choice bits *)
  Definition r2_rnd (b : nat -> nat -> bool) : trand :=
    {| r_seed := fun _ => 0%N; r_b := b; r_ot_s := fun _ => 0%N; r_ot_r := fun _ => 0%N; r_ot_b := fun _ => false; r_ot_delta := 0%N; r_chal := fun _ => 0%N |}.
  (** svole.h:124-131 extend_send: values and macs *)
  Definition r2_stage (p : lpn_param) (i : nat) (vm : mem * mem) (Z0 : mem) : mem * mem :=
    let Z := r2_trees (lp_log p + 1) (tree_tasks threads (lp_t p)) (bits i) (views i) (snd vm) Z0 in
    let X := f2_set_x (lp_log p + 1) (r2_rnd (bits i)) (lp_t p) 0 (fst vm) (fun _ => 0%N) in
    (f2_lpn word (lp_k p) (lp_n p) threads (view (fst vm) (lp_t p)) X,
     f2_lpn word (lp_k p) (lp_n p) threads (view (snd vm) (lp_t p)) Z).
  Fixpoint r2_seeds (i : nat) : mem * mem :=
    match i with
    | 0 => r2_stage pre 0 (f2_base_val cot, f2_base_mac cot) (fun _ => 0%N)
    | S i' => let vm := r2_seeds i' in let o := r2_stage main (i' + 1) vm (zbuf i') in
              (memcpy (fst vm) 0 (fst o) (lp_limit main) (lp_M main), memcpy (snd vm) 0 (snd o) (lp_limit main) (lp_M main))
    end.
  Definition r2_out (i : nat) : mem * mem := r2_stage main (i + 1) (r2_seeds i) (zbuf i).
  Definition r2_val (i p : nat) : N := fst (r2_out i) p.
  Definition r2_mac (i p : nat) : N := snd (r2_out i) p.
  Definition r2_in (i : nat) : mem * mem := match i with 0 => (f2_base_val cot, f2_base_mac cot) | S i' => r2_seeds i' end.
  (** mpfss.h:188-194: the word the code sends in the check of stage i *)
  Definition r2_star (dig : nat -> nat -> N) (i : nat) : N :=
    let p := s2_par i in
    f2_x_star (lp_t p) (fst (r2_in i)) (fun s => f2_chi_alpha (lp_log p + 1) (dig i s) (bits i s)).
End Generator.
