(** Worker threads of the batch checks and of the linear expansions, as programs of single memory accesses.

    Every access to memory that two threads can reach is a separate step, in source order; locals
    (chi, accumulators, PRP state, index arrays) are part of the program state.  Code modelled:
    - emp-zk-bool/ostriple.h:153-168 (tasks of andgate_correctness_check_manage), :213-255 (worker);
    - emp-zk-arith/ostriple.h:185-205, :243-288;
    - extensions/ram-zk/ostriple.h:206-227, :271-311;
    - emp-vole/lpn.h:35-179, emp-vole-f2k/lpn_f2k.h:33-110.
    The main thread runs the last task itself and then waits for the others (f.get()), so it is one more
    worker and everything after the wait sees the memory of a complete execution.  In the code a task
    starts after it was enqueued; here all tasks may start at once, which allows more schedules.
    Not modelled: weak memory.  C++ gives interleaving semantics to programs without data races, and
    the absence of races is one of the theorems. *)
From Coq Require Import NArith List Bool Arith.
From Verif Require Import Word FpModel GF128 BoolModel ArithModel F2kModel VoleModel VoleF2kModel.
Import ListNotations.

(** shared arrays: operand buffers, seeds, results; tables and vectors of the linear expansions *)
Inductive arr := Left | Right | Out | LVal | LMac | RVal | RMac | OMac | Seed | Sum | Tab | Tab2 | Vec | Vec2.
Definition loc : Type := (arr * nat)%type.
Definition arr_eqb (a b : arr) : bool :=
  match a, b with
  | Left, Left | Right, Right | Out, Out | LVal, LVal | LMac, LMac | RVal, RVal | RMac, RMac | OMac, OMac
  | Seed, Seed | Sum, Sum | Tab, Tab | Tab2, Tab2 | Vec, Vec | Vec2, Vec2 => true
  | _, _ => false
  end.
Definition loc_eqb (a b : loc) : bool := arr_eqb (fst a) (fst b) && Nat.eqb (snd a) (snd b).
Definition smem : Type := loc -> N.
Definition put (m : smem) (l : loc) (v : N) : smem := fun l' => if loc_eqb l' l then v else m l'.

Inductive prog : Type :=
| Done
| Read (l : loc) (k : N -> prog)
| Write (l : loc) (v : N) (k : prog).

(** one thread alone *)
Fixpoint run (m : smem) (p : prog) : smem :=
  match p with
  | Done => m
  | Read l k => run m (k (m l))
  | Write l v k => run (put m l v) k
  end.
(** the tasks one after the other *)
Definition run_all (m : smem) (ps : list prog) : smem := fold_left run ps m.

(** one step of any thread *)
Inductive step : smem * list prog -> smem * list prog -> Prop :=
| step_read m a l k b : step (m, a ++ Read l k :: b) (m, a ++ k (m l) :: b)
| step_write m a l v k b : step (m, a ++ Write l v k :: b) (put m l v, a ++ k :: b).
Inductive steps : nat -> smem * list prog -> smem * list prog -> Prop :=
| steps_0 c : steps 0 c c
| steps_S n c c' c'' : step c c' -> steps n c' c'' -> steps (S n) c c''.
Definition all_done (ps : list prog) : Prop := Forall (fun p => p = Done) ps.

Fixpoint read_list (ls : list loc) (k : list N -> prog) : prog :=
  match ls with
  | [] => k []
  | l :: ls' => Read l (fun v => read_list ls' (fun vs => k (v :: vs)))
  end.
Definition read_range (a : arr) (start n : nat) : (list N -> prog) -> prog :=
  read_list (map (fun i => (a, i)) (seq start n)).

(** * emp-zk-bool/ostriple.h:213-255 *)
(** :224-234 *)
Fixpoint bp_gates (i n : nat) (k : prog) : prog :=
  match n with
  | 0 => k
  | S n' =>
      Read (Left, i) (fun l0 => Read (Right, i) (fun r0 =>
      let A0 := gfmul l0 r0 in
      Read (Right, i) (fun r1 => Read (Left, i) (fun l1 =>
      let A1 := if getLSB l1 then r1 else 0%N in
      Read (Left, i) (fun l2 => Read (Right, i) (fun r2 =>
      let A1 := N.lxor A1 (if getLSB r2 then l2 else 0%N) in
      Read (Out, i) (fun o =>
      let A1 := N.lxor A1 o in
      Write (Left, i) A0 (Write (Right, i) A1 (bp_gates (S i) n' k)))))))))
  end.
(** :236-243 *)
Fixpoint bv_gates (delta : N) (i n : nat) (k : prog) : prog :=
  match n with
  | 0 => k
  | S n' =>
      Read (Left, i) (fun l => Read (Right, i) (fun r =>
      let B := gfmul l r in
      Read (Out, i) (fun o =>
      let tmp := gfmul o delta in
      Write (Left, i) (N.lxor B tmp) (bv_gates delta (S i) n' k))))
  end.
(** :160-161, :213-255; the task reads share_seed[i] before the call *)
Definition bp_task (thr start n : nat) : prog :=
  Read (Seed, thr) (fun sd =>
    if Nat.eqb n 0 then Done else
    bp_gates start n (
      let chi := gf_coeff_gen sd n in
      read_range Left start n (fun xs => Write (Sum, 2 * thr) (gf_inn_prdt chi xs) (
      read_range Right start n (fun ys => Write (Sum, 2 * thr + 1) (gf_inn_prdt chi ys) Done))))).
Definition bv_task (delta : N) (thr start n : nat) : prog :=
  Read (Seed, thr) (fun sd =>
    if Nat.eqb n 0 then Done else
    bv_gates delta start n (
      let chi := gf_coeff_gen sd n in
      read_range Left start n (fun xs => Write (Sum, thr) (gf_inn_prdt chi xs) Done))).
(** the tasks of a batch whose ranges are [rs] *)
Definition tasks (task : nat -> nat -> nat -> prog) (rs : list (nat * nat)) : list prog :=
  map (fun ir => task (fst ir) (fst (snd ir)) (snd (snd ir))) (combine (seq 0 (length rs)) rs).
(** :186-191, :198-199 what the main thread computes from sum[] after the wait *)
Definition bp_combine (m : smem) (threads : nat) (ope : list N) : N * N :=
  fold_left (fun acc i => (N.lxor (fst acc) (m (Sum, 2 * i)), N.lxor (snd acc) (m (Sum, 2 * i + 1)))) (seq 0 threads)
    (packing ope, ch_bits ope).
Definition bv_combine (m : smem) (threads : nat) (ope : list N) : N :=
  fold_left (fun acc i => N.lxor acc (m (Sum, i))) (seq 0 threads) (packing ope).

(** * emp-zk-arith/ostriple.h:243-288 *)
(** :258-270 *)
Fixpoint ap_gates (i n : nat) (chi : list N) (U V : N) (k : N -> N -> prog) : prog :=
  match n, chi with
  | S n', c :: chi' =>
      Read (Left, i) (fun l => let a := hi64 l in
      Read (Left, i) (fun l => let ma := lo64 l in
      Read (Right, i) (fun r => let b := hi64 r in
      Read (Right, i) (fun r => let mb := lo64 r in
      Read (Out, i) (fun o => let mc := lo64 o in
      let A0 := mult_mod ma mb in
      let A1 := add_mod (mult_mod a mb) (mult_mod b ma) in
      let tmp := sub64 PR mc in
      let A1 := add_mod A1 tmp in
      ap_gates (S i) n' chi' (add_mod U (mult_mod A0 c)) (add_mod V (mult_mod A1 c)) k)))))
  | _, _ => k U V
  end.
(** :277-283 *)
Fixpoint av_gates (delta : N) (i n : nat) (chi : list N) (W : N) (k : N -> prog) : prog :=
  match n, chi with
  | S n', c :: chi' =>
      Read (Left, i) (fun l => let ka := lo64 l in
      Read (Right, i) (fun r => let kb := lo64 r in
      Read (Out, i) (fun o => let kc := lo64 o in
      let B := add_mod (mult_mod ka kb) (mult_mod kc delta) in
      av_gates delta (S i) n' chi' (add_mod W (mult_mod B c)) k)))
  | _, _ => k W
  end.
(** :245-246, :251-256, :271-287; here the worker itself reads chi_seed[thr_idx] *)
Definition ap_task (thr start n : nat) : prog :=
  if Nat.eqb n 0 then Done else
  Read (Seed, thr) (fun sd =>
    ap_gates start n (a_chi sd n) 0 0 (fun U V => Write (Sum, 2 * thr) U (Write (Sum, 2 * thr + 1) V Done))).
Definition av_task (delta : N) (thr start n : nat) : prog :=
  if Nat.eqb n 0 then Done else
  Read (Seed, thr) (fun sd =>
    av_gates delta start n (a_chi sd n) 0 (fun W => Write (Sum, thr) W Done)).
(** :208-216 *)
Definition ap_combine (m : smem) (threads : nat) : N * N :=
  fold_left (fun acc i => (add_mod (fst acc) (m (Sum, 2 * i)), add_mod (snd acc) (m (Sum, 2 * i + 1)))) (seq 0 threads) (0, 0)%N.
Definition av_combine (m : smem) (threads : nat) : N :=
  fold_left (fun acc i => add_mod acc (m (Sum, i))) (seq 0 threads) 0%N.

(** * extensions/ram-zk/ostriple.h:271-311 *)
(** :281-291 *)
Fixpoint kp_gates (i n : nat) (k : prog) : prog :=
  match n with
  | 0 => k
  | S n' =>
      Read (LMac, i) (fun lm0 => Read (RMac, i) (fun rm0 =>
      let A0 := gfmul lm0 rm0 in
      Read (LVal, i) (fun lv => Read (RMac, i) (fun rm1 =>
      let tmp := gfmul lv rm1 in
      Read (RVal, i) (fun rv => Read (LMac, i) (fun lm1 =>
      let A1 := gfmul rv lm1 in
      let A1 := N.lxor A1 tmp in
      Read (OMac, i) (fun om =>
      let A1 := N.lxor A1 om in
      Write (LVal, i) A0 (Write (RVal, i) A1 (kp_gates (S i) n' k)))))))))
  end.
(** :292-299 *)
Fixpoint kv_gates (delta : N) (i n : nat) (k : prog) : prog :=
  match n with
  | 0 => k
  | S n' =>
      Read (LMac, i) (fun lm => Read (RMac, i) (fun rm =>
      let B := gfmul lm rm in
      Read (OMac, i) (fun om =>
      let tmp := gfmul om delta in
      Write (LVal, i) (N.lxor B tmp) (kv_gates delta (S i) n' k))))
  end.
Definition kp_task (thr start n : nat) : prog :=
  Read (Seed, thr) (fun sd =>
    if Nat.eqb n 0 then Done else
    kp_gates start n (
      let chi := gf_coeff_gen sd n in
      read_range LVal start n (fun xs => Write (Sum, 2 * thr) (gf_inn_prdt chi xs) (
      read_range RVal start n (fun ys => Write (Sum, 2 * thr + 1) (gf_inn_prdt chi ys) Done))))).
Definition kv_task (delta : N) (thr start n : nat) : prog :=
  Read (Seed, thr) (fun sd =>
    if Nat.eqb n 0 then Done else
    kv_gates delta start n (
      let chi := gf_coeff_gen sd n in
      read_range LVal start n (fun xs => Write (Sum, thr) (gf_inn_prdt chi xs) Done))).

(** * emp-vole/lpn.h *)
Section LpnTask.
  Variable word : nat -> nat -> N.
  Variable k : nat.
  Definition tabs (i n : nat) : list loc := map (fun w => (Tab, lpn_idx word k i w)) (seq 0 n).
  Definition lane (l : nat) (vs : list N) : list N := map (fun j => nth (4 * j + l) vs 0%N) (seq 0 10).
  (** lpn.h:83-110 add1: forty table reads, then four read-modify-writes *)
  Fixpoint add1_out (i l n : nat) (vs : list N) (c : prog) : prog :=
    match n with
    | 0 => c
    | S n' =>
        let e := map lo64 (lane l vs) in
        let a := sum64 (mod1 (sum64 0%N (firstn 5 e))) (skipn 5 e) in
        Read (Vec, i + l) (fun x => Write (Vec, i + l) (mod1 (lo64 (add128 x a))) (add1_out i (S l) n' vs c))
    end.
  Definition s_compute4 (i : nat) (c : prog) : prog := read_list (tabs i 40) (fun vs => add1_out i 0 4 vs c).
  (** lpn.h:44-52 add1_single *)
  Definition s_compute1 (i : nat) (c : prog) : prog :=
    Read (Vec, i) (fun x => read_list (tabs i 10) (fun vs =>
      let e := map lo64 vs in
      let a := mod1 (sum64 (lo64 x) (firstn 5 e)) in
      Write (Vec, i) (mod1 (sum64 a (skipn 5 e))) c)).
  (** lpn.h:54-81 add2: four reads, forty table reads, four writes *)
  Fixpoint add2_out (i l n : nat) (xs vs : list N) (c : prog) : prog :=
    match n with
    | 0 => c
    | S n' =>
        let e := lane l vs in
        Write (Vec, i + l) (vec_mod (vsum (vec_mod (vsum (nth l xs 0%N) (firstn 5 e))) (skipn 5 e))) (add2_out i (S l) n' xs vs c)
    end.
  Definition r_compute4 (i : nat) (c : prog) : prog :=
    read_range Vec i 4 (fun xs => read_list (tabs i 40) (fun vs => add2_out i 0 4 xs vs c)).
  (** lpn.h:35-43 add2_single *)
  Definition r_compute1 (i : nat) (c : prog) : prog :=
    Read (Vec, i) (fun x => read_list (tabs i 10) (fun vs =>
      let a := vec_mod (vsum x (firstn 5 vs)) in
      Write (Vec, i) (vec_mod (vsum a (skipn 5 vs))) c)).
  (** lpn.h:139-163 task *)
  Fixpoint lpn_loop (fuel j e : nat) (party1 : bool) : prog :=
    match fuel with
    | 0 => Done
    | S f => if Nat.ltb (j + 4) e then (if party1 then s_compute4 else r_compute4) j (lpn_loop f (j + 4) e party1)
             else if Nat.ltb j e then (if party1 then s_compute1 else r_compute1) j (lpn_loop f (S j) e party1)
             else Done
    end.
  Definition lpn_tasks (party1 : bool) (rs : list (nat * nat)) : list prog :=
    map (fun r => lpn_loop (snd r - fst r) (fst r) (snd r) party1) rs.

  (** * emp-vole-f2k/lpn_f2k.h:33-44: [two] = add2 (Val and Mac), else add1 (Mac only).
      Vec/Tab are Mac/preM, Vec2/Tab2 are Val/preV. *)
  Fixpoint f2_out (two : bool) (i : nat) (e : list nat) (c : prog) : prog :=
    match e with
    | [] => c
    | x :: e' =>
        let mac c := Read (Vec, i) (fun a => Read (Tab, x) (fun b => Write (Vec, i) (N.lxor a b) c)) in
        let rest := mac (f2_out two i e' c) in
        if two then Read (Vec2, i) (fun a => Read (Tab2, x) (fun b => Write (Vec2, i) (N.lxor a b) rest)) else rest
    end.
  (** lpn_f2k.h:46-94 *)
  Fixpoint f2_loop (two : bool) (fuel j e : nat) : prog :=
    match fuel with
    | 0 => Done
    | S f => if Nat.ltb (j + 4) e then
               f2_out two (j + 0) (f2_edges4 word k j 0) (f2_out two (j + 1) (f2_edges4 word k j 1)
                 (f2_out two (j + 2) (f2_edges4 word k j 2) (f2_out two (j + 3) (f2_edges4 word k j 3)
                   (f2_loop two f (j + 4) e))))
             else if Nat.ltb j e then f2_out two j (f2_edges1 word k j) (f2_loop two f (S j) e)
             else Done
    end.
  Definition f2_tasks (two : bool) (rs : list (nat * nat)) : list prog :=
    map (fun r => f2_loop two (snd r - fst r) (fst r) (snd r)) rs.
End LpnTask.
