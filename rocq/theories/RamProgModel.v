(** Programs that use the oblivious memories: what a call commits and returns, and the test programs of /repo/test/ram.

    Simplifications: the arguments of a call are the values committed on their wires; the values are below 2^val_sz (Integer(val_sz, ..)
    truncates); `1 << (step_sz - 1)` does not overflow. *)
From Coq Require Import NArith List Bool Arith.
From Verif Require Import RamModel RamSpec.
Import ListNotations.

(** zk-mem.h:82-97 read: the value is a fresh input of the prover; :99-113 write: the value is the argument; :57-80 access: the value
    is a fresh input of the prover in both cases ([prv_val]) *)
Definition call_record (o : rwop) (fresh : N) : acc :=
  match o with
  | RRead i => {| a_addr := N.of_nat i; a_write := false; a_val := fresh |}
  | RWrite i v => {| a_addr := N.of_nat i; a_write := true; a_val := v |}
  | RAccess op i _ => {| a_addr := N.of_nat i; a_write := op; a_val := fresh |}
  | _ => {| a_addr := 0; a_write := false; a_val := 0 |}%N
  end.
(** what the call returns to the program *)
Definition call_result (o : rwop) (fresh : N) : option N := match o with RWrite _ _ => None | _ => Some fresh end.
(** a prover that feeds [fs] *)
Definition prog_log (os : list rwop) (fs : list N) : list acc := map (fun of => call_record (fst of) (snd of)) (combine os fs).
Definition prog_results (os : list rwop) (fs : list N) : list (option N) := map (fun of => call_result (fst of) (snd of)) (combine os fs).

(** every access followed by refresh(), as in the test programs *)
Definition with_refresh (os : list rwop) : list rwop := flat_map (fun o => [o; RRefresh]) os.
(** ram_test.cpp:29-32 with the factor 1 (bench), :61-64 with 2, :75-78 with 3; :36-40, :65-72, :79-86 *)
Definition fill (index_sz val_sz factor : nat) : list rwop :=
  map (fun i => RWrite i ((N.of_nat factor * N.of_nat i) mod 2 ^ N.of_nat val_sz)%N) (seq 0 (2 ^ index_sz)).
Definition read_all (index_sz : nat) : list rwop := map RRead (seq 0 (2 ^ index_sz)).
(** ram_test.cpp:25-41 bench: test_n / (1 << index_sz) = 1 *)
Definition ram_bench (index_sz val_sz : nat) : list rwop := with_refresh (fill index_sz val_sz 1 ++ read_all index_sz) ++ [RCheck].
(** ram_test.cpp:57-87 test *)
Definition ram_test (index_sz val_sz : nat) : list rwop :=
  with_refresh (fill index_sz val_sz 2 ++ read_all index_sz) ++ [RCheck] ++
  with_refresh (fill index_sz val_sz 3 ++ read_all index_sz) ++ [RCheck].

(** zk-mem-ext.h:150-162 refresh of the wide memory *)
Inductive xcall : Type := XOp (o : wop) | XRefresh.
Fixpoint x_read_all (nw : nat) (s : wst) (is : list nat) : option (wst * list (list N)) :=
  match is with
  | [] => Some (s, [])
  | i :: is' => match x_do nw s (WRead i) with
                | None => None
                | Some s' => match x_read_all nw s' is' with
                             | None => None
                             | Some (s'', vs) => Some (s'', nth i (x_mem s) [] :: vs)
                             end
                end
  end.
Definition x_refresh (nw index_sz step_sz : nat) (s : wst) : option wst :=
  let capacity := 2 ^ index_sz in
  if Nat.eqb (x_step s + capacity) (2 ^ (step_sz - 1)) then
    match x_read_all nw s (seq 0 capacity) with
    | None => None
    | Some (s', vs) => match x_do nw s' WCheck with
                       | None => None
                       | Some s'' => x_run nw s'' (map (fun iv => WWrite (fst iv) (snd iv)) (combine (seq 0 capacity) vs))
                       end
    end
  else Some s.
Definition x_call (nw index_sz step_sz : nat) (s : wst) (c : xcall) : option wst :=
  match c with XOp o => x_do nw s o | XRefresh => x_refresh nw index_sz step_sz s end.
Fixpoint x_calls (nw index_sz step_sz : nat) (s : wst) (cs : list xcall) : option wst :=
  match cs with
  | [] => Some s
  | c :: cs' => match x_call nw index_sz step_sz s c with None => None | Some s' => x_calls nw index_sz step_sz s' cs' end
  end.
Definition x_with_refresh (os : list wop) : list xcall := flat_map (fun o => [XOp o; XRefresh]) os.
(** ram_ext_test.cpp:11-33, with [nw] = block_sz words per value *)
Definition wide_fill (nw index_sz : nat) : list wop :=
  map (fun i => WWrite i (map (fun j => (2 * N.of_nat i + N.of_nat j) mod 2 ^ 64)%N (seq 0 nw))) (seq 0 (2 ^ index_sz)).
Definition wide_read_all (index_sz : nat) : list wop := map WRead (seq 0 (2 ^ index_sz)).
Definition ram_ext_test (nw index_sz : nat) : list xcall := x_with_refresh (wide_fill nw index_sz ++ wide_read_all index_sz) ++ [XOp WCheck].
(** ro_ram_test.cpp:58-72 test: the data, and the reads before check() *)
Definition ro_test_data (index_sz val_sz : nat) : list N := map (fun i => (2 * N.of_nat i) mod 2 ^ N.of_nat val_sz)%N (seq 0 (2 ^ index_sz)).
