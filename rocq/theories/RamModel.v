(** Model of the three oblivious memories
    /repo/emp-zk/extensions/ram-zk/{ro-zk-mem.h, zk-mem.h, zk-mem-ext.h}.

    Simplifications, stated once:
    - An Integer of n authenticated bits is represented by the number its committed bits spell
      (the boolean engine that authenticates and computes on them is modelled in BoolModel.v; what
      it binds is C04-C07).  Integer comparison is emp-tool's circuit: [geq] is the negated sign
      bit of the n-bit difference, [<] its negation, [==] bitwise equality.
    - std::sort is an oracle: theorems quantify over the sorted list.
    - Labels of an Integer are the list of its bits' blocks, as the mac packing sees them.
    - Timing fields and the unused functions check_MAC_valid, vector_inn_prdt, inn_prdt, bch2, bch3
      are left out.
    - [None] is undefined behaviour: an access outside a vector. *)
From Coq Require Import NArith List Bool Arith.
From Verif Require Import Word GF128 GfmulModel BoolModel F2kModel.
Import ListNotations.

(** * Integer comparison (emp-tool circuits) *)
Definition igeq (n : nat) (a b : N) : bool :=
  negb (N.testbit ((a + 2 ^ N.of_nat n - b) mod 2 ^ N.of_nat n) (N.of_nat n - 1)).
Definition ilt (n : nat) (a b : N) : bool := negb (igeq n a b).

(** * Packing *)
(** inner product of the labels of a field with the powers of X from position [off] on *)
Definition inn_at (labels : list N) (off n : nat) : N :=
  gf_inn_prdt (firstn n labels) (firstn n (skipn off pack_base)).
Definition shl_u64 (x : N) (k : nat) : N := (N.shiftl x (N.of_nat k) mod 2 ^ 64)%N.
Definition shl_u128 (x : N) (k : nat) : N := (N.shiftl x (N.of_nat k) mod 2 ^ 128)%N.

(** ro-zk-mem.h:64-70 *)
Definition ro_pack_mac (index_sz val_sz : nat) (index val : list N) : N :=
  N.lxor (inn_at val 0 val_sz) (inn_at index val_sz index_sz).
(** ro-zk-mem.h:72-74 *)
Definition ro_pack (val_sz : nat) (index value : N) : N := N.lor (shl_u128 index val_sz) value.
(** ro-zk-mem.h:93-96: the fields of a packed item of the sorted list *)
Definition ro_unpack (index_sz val_sz : nat) (item : N) : N * N :=
  let i1 := (N.land item (shl_u128 1 val_sz - 1) mod 2 ^ 64)%N in
  let i2 := (N.shiftr item (N.of_nat val_sz) mod 2 ^ 64)%N in
  (i2 mod 2 ^ N.of_nat (index_sz + 1), i1 mod 2 ^ N.of_nat val_sz)%N.
(** zk-mem.h:34-47 *)
Definition rw_pack_mac (index_sz step_sz val_sz : nat) (index val step : list N) (op : N) : N :=
  let res := inn_at val 0 val_sz in
  let res1 := gfmul op (nth val_sz pack_base 0%N) in
  let res := N.lxor res res1 in
  let res1 := inn_at step (val_sz + 1) step_sz in
  let res := N.lxor res res1 in
  let res1 := inn_at index (val_sz + 1 + step_sz) index_sz in
  N.lxor res res1.
(** zk-mem.h:50-55 *)
Definition rw_pack (step_sz val_sz : nat) (index value step op : N) : N :=
  let res := N.lor (N.lor (shl_u64 index (step_sz + 1)) (shl_u64 step 1)) (N.land op 1) in
  let res := shl_u128 res val_sz in
  N.lor res value.
(** zk-mem.h:140-152 *)
Definition rw_unpack (index_sz step_sz val_sz : nat) (item : N) : N * N * bool * N :=
  let value := N.land item (shl_u128 1 val_sz - 1) in
  let v := N.shiftr item (N.of_nat val_sz) in
  let high := (v mod 2 ^ 64)%N in
  let op := N.testbit high 0 in
  let high := N.shiftr high 1 in
  let step := N.land high (shl_u128 1 step_sz - 1) in
  let v := N.shiftr v (N.of_nat (step_sz + 1)) in
  let index := N.land v (shl_u64 1 index_sz - 1) in
  (index mod 2 ^ N.of_nat (index_sz + 1), step mod 2 ^ N.of_nat step_sz, op, value mod 2 ^ N.of_nat val_sz)%N.

(** zk-mem-ext.h:44-77: rows of labels.  index_bit_sz = 32, step_bit_sz = 31, val_bit_sz = 64; the
    value is a list of words, the first of which shares the row of index, step and op. *)
Fixpoint ext_mac_rows (val : list (list N)) : list N :=
  match val with
  | [] => []
  | [a] => [N.lxor (inn_at a 64 64) 0]
  | a :: b :: rest => N.lxor (inn_at a 64 64) (inn_at b 0 64) :: ext_mac_rows rest
  end.
Definition ext_pack_mac (index : list N) (val : list (list N)) (step : list N) (op : N) : option (list N) :=
  match val with
  | [] => None
  | v0 :: rest =>
      let res1 := inn_at v0 0 (length v0) in
      let res2 := gfmul op (nth 64 pack_base 0%N) in
      let res1 := N.lxor res1 res2 in
      let res2 := inn_at step 65 (length step) in
      let res1 := N.lxor res1 res2 in
      let res2 := inn_at index 96 (length index) in
      Some (N.lxor res1 res2 :: ext_mac_rows rest)
  end.
(** zk-mem-ext.h:80-103; value[0] of an empty vector is undefined (:87) *)
Fixpoint ext_rows (val : list N) : list N :=
  match val with
  | [] => []
  | [a] => [shl_u128 a 64]
  | a :: b :: rest => N.lor (shl_u128 a 64) b :: ext_rows rest
  end.
Definition ext_pack (index : N) (val : list N) (step op : N) : option (list N) :=
  match val with
  | [] => None
  | v0 :: rest =>
      let res := N.lor (N.lor (shl_u64 index 32) (shl_u64 step 1)) (N.land op 1) in
      Some (N.lor (shl_u128 res 64) v0 :: ext_rows rest)
  end.
(** zk-mem-ext.h:278-299, one row *)
Definition compress (coef row : list N) : N := gf_inn_prdt coef row.

(** * Order checks on the claimed sorted list *)
(** ro-zk-mem.h:101-110: entries are (index, value); index has index_sz+1 bits *)
Fixpoint ro_order (index_sz : nat) (l : list (N * N)) : bool :=
  match l with
  | a :: (b :: _) as r =>
      (negb (igeq (index_sz + 1) (fst a) (fst b)) || (N.eqb (fst a) (fst b) && N.eqb (snd a) (snd b)))
      && ro_order index_sz r
  | _ => true
  end.
(** zk-mem.h:155-163: entries are (index, step, op, value) *)
Record entry := { e_idx : N; e_step : N; e_op : bool; e_val : N }.
Fixpoint rw_order (index_sz step_sz : nat) (l : list entry) : bool :=
  match l with
  | a :: (b :: _) as r =>
      let eq := N.eqb (e_idx a) (e_idx b) in
      ((ilt (index_sz + 1) (e_idx a) (e_idx b) || (eq && ilt step_sz (e_step a) (e_step b)))
       && (N.eqb (e_val a) (e_val b) || e_op b) && (eq || e_op b))
      && rw_order index_sz step_sz r
  | _ => true
  end.
(** zk-mem-ext.h:228-243 *)
Record wentry := { w_idx : N; w_step : N; w_op : bool; w_val : list N }.
Fixpoint words_eq (a b : list N) : bool :=
  match a, b with
  | [], [] => true
  | x :: a', y :: b' => N.eqb x y && words_eq a' b'
  | _, _ => false
  end.
Fixpoint ext_order (step_sz : nat) (l : list wentry) : bool :=
  match l with
  | a :: (b :: _) as r =>
      let index_neq := negb (N.eqb (w_idx a) (w_idx b)) in
      let step_less := ilt step_sz (w_step a) (w_step b) in
      let value_eq := words_eq (w_val a) (w_val b) in
      (index_neq || (negb index_neq && step_less && ((negb (w_op b) && value_eq) || w_op b)))
      && ext_order step_sz r
  | _ => true
  end.

(** * Product of the packed elements, batches of four
    (ro-zk-mem.h:181-202, zk-mem.h:276-310, zk-mem-ext.h:301-335).  [n] is list.size() (ro) or step
    (rw, ext); [x i] is the element number of X[i]; [w] the next free element number; the result is
    the gates, the number of the accumulator and the next free number.  The two loop bounds are
    uint64_t: n - 3 wraps.  Reading X[i] or MAC[i] with i >= n is undefined. *)
Definition u64_sub (a b : N) : N := ((a + 2 ^ 64 - b) mod 2 ^ 64)%N.
Section Product.
  Variables (acc_last : bool) (n : nat) (x : nat -> nat) (r : N).
  (** ro-zk-mem.h:196-201 *)
  Fixpoint prod_tail (fuel i acc w : nat) : option (list fgate * nat * nat) :=
    if Nat.ltb i n then
      match fuel with
      | 0 => None
      | S fuel' =>
          match prod_tail fuel' (i + 1) (w + 1) (w + 2) with
          | Some (gs, a, w') => Some (FAddC (x i) r :: FMul acc w :: gs, a, w')
          | None => None
          end
      end
    else Some ([], acc, w).
  (** ro-zk-mem.h:187-195; the accumulator is the last operand in ro-zk-mem.h:192-193, the first one in
      zk-mem.h:285-286 *)
  Fixpoint prod_loop (fuel i acc w : nat) : option (list fgate * nat * nat) :=
    if N.ltb (N.of_nat i) (u64_sub (N.of_nat n) 3) then
      match fuel with
      | 0 => None
      | S fuel' =>
          if Nat.leb n (i + 3) then None else
          match prod_loop fuel' (i + 4) (w + 4) (w + 5) with
          | Some (gs, a, w') =>
              Some ([FAddC (x i) r; FAddC (x (i + 1)) r; FAddC (x (i + 2)) r; FAddC (x (i + 3)) r;
                     if acc_last then FMul5 w (w + 1) (w + 2) (w + 3) acc
                     else FMul5 acc w (w + 1) (w + 2) (w + 3)] ++ gs, a, w')
          | None => None
          end
      end
    else prod_tail n i acc w.
  Definition prod_bch4 (w : nat) : option (list fgate * nat * nat) :=
    if Nat.eqb n 0 then None else
    match prod_loop n 1 w (w + 1) with
    | Some (gs, a, w') => Some (FAddC (x 0) r :: gs, a, w')
    | None => None
    end.
End Product.
(** check_set_euqality: ro-zk-mem.h:205-227, zk-mem.h:312-333, zk-mem-ext.h:337-358.  Elements 0..n-1
    are the sorted list, n..2n-1 the recorded one. *)
Definition seteq_circuit (acc_last : bool) (n : nat) (r : N) : option (list fgate * nat * nat) :=
  match prod_bch4 acc_last n (fun i => i) r (2 * n) with
  | None => None
  | Some (g0, a0, w0) =>
      match prod_bch4 acc_last n (fun i => n + i) r w0 with
      | None => None
      | Some (g1, a1, _) => Some (repeat FExt (2 * n) ++ g0 ++ g1, a0, a1)
      end
  end.
(** what the prover sends, and the verifier's test *)
Definition seteq_msg (ws : list fwire) (a0 a1 : nat) : N * N := (snd (pw ws a0), snd (pw ws a1)).
Definition seteq_accept (ks : list N) (a0 a1 : nat) (msg : N * N) : bool :=
  N.eqb (N.lxor (vw ks a0) (fst msg)) (N.lxor (vw ks a1) (snd msg)).

(** what check() does with its two verdicts.  ZKRAM prints "wrong!!" when the revealed order bit is
    false and goes on (zk-mem.h:164-165); a failed set equality calls error(), which exits
    (:328-330).  ROZKRAM calls error() in both cases (ro-zk-mem.h:110-111, 223-225); ZkRamExt throws
    (zk-mem-ext.h:245-247) or calls error() (:353-355). *)
Inductive ram_verdict : Type := Passed | PrintedWrong | Stopped.
Definition rw_verdict (order_ok set_ok : bool) : ram_verdict :=
  if set_ok then if order_ok then Passed else PrintedWrong else Stopped.
Definition stop_verdict (order_ok set_ok : bool) : ram_verdict :=
  if order_ok then if set_ok then Passed else Stopped else Stopped.

(** * Life cycle of the cell array (prover side) *)
(** mem[i] of a vector: undefined outside *)
Definition cell (A : Type) (mem : list A) (i : nat) : option A := nth_error mem i.
Arguments cell {A}.
Fixpoint upd (A : Type) (mem : list A) (i : nat) (v : A) : list A :=
  match mem, i with
  | [], _ => []
  | _ :: m, 0 => v :: m
  | a :: m, S j => a :: upd A m j v
  end.
Arguments upd {A}.

(** ** ROZKRAM *)
Record rost := { ro_mem : list N; ro_list : list (N * N); ro_step : nat;
                 ro_checked : list (list (N * N)) (* lists handed to check(), in order *) }.
(** ro-zk-mem.h:31-42 *)
Definition ro_init (data : list N) : rost :=
  {| ro_mem := data; ro_list := combine (map N.of_nat (seq 0 (length data))) data; ro_step := 0;
     ro_checked := [] |}.
(** ro-zk-mem.h:117-119 (the test itself is above) *)
Definition ro_check (s : rost) : rost :=
  {| ro_mem := ro_mem s; ro_list := firstn (length (ro_mem s)) (ro_list s); ro_step := 0;
     ro_checked := ro_checked s ++ [ro_list s] |}.
(** ro-zk-mem.h:44-62 *)
Definition ro_read (s : rost) (i : nat) : option (rost * N) :=
  match cell (ro_mem s) i with
  | None => None
  | Some v =>
      let s' := {| ro_mem := ro_mem s; ro_list := ro_list s ++ [(N.of_nat i, v)]; ro_step := S (ro_step s);
                   ro_checked := ro_checked s |} in
      Some (if Nat.eqb (ro_step s') (length (ro_mem s') * 8) then ro_check s' else s', v)
  end.
Fixpoint ro_reads (s : rost) (is : list nat) : option (rost * list N) :=
  match is with
  | [] => Some (s, [])
  | i :: is' =>
      match ro_read s i with
      | None => None
      | Some (s', v) =>
          match ro_reads s' is' with None => None | Some (s'', vs) => Some (s'', v :: vs) end
      end
  end.

(** ** ZKRAM *)
Inductive rwop : Type :=
| RRead (i : nat)
| RWrite (i : nat) (v : N)
| RAccess (op : bool) (i : nat) (v : N)
| RCheck
| RRefresh.
Record rwst := { rw_mem : list N; rw_list : list entry; rw_step : nat; rw_checked : list (list entry) }.
(** zk-mem.h:18-29: capacity = 1 << index_sz cells, all zero *)
Definition rw_init (index_sz : nat) : rwst :=
  {| rw_mem := repeat 0%N (2 ^ index_sz); rw_list := []; rw_step := 0; rw_checked := [] |}.
Definition rw_push (s : rwst) (mem : list N) (i : nat) (op : bool) (v : N) : rwst :=
  {| rw_mem := mem;
     rw_list := rw_list s ++ [{| e_idx := N.of_nat i; e_step := N.of_nat (rw_step s); e_op := op; e_val := v |}];
     rw_step := S (rw_step s); rw_checked := rw_checked s |}.
(** zk-mem.h:82-97 *)
Definition rw_read (s : rwst) (i : nat) : option (rwst * N) :=
  match cell (rw_mem s) i with None => None | Some v => Some (rw_push s (rw_mem s) i false v, v) end.
(** zk-mem.h:99-113 *)
Definition rw_write (s : rwst) (i : nat) (v : N) : option rwst :=
  match cell (rw_mem s) i with None => None | Some _ => Some (rw_push s (upd (rw_mem s) i v) i true v) end.
(** zk-mem.h:57-80 *)
Definition rw_access (s : rwst) (op : bool) (i : nat) (v : N) : option rwst :=
  match cell (rw_mem s) i with
  | None => None
  | Some m => Some (if op then rw_push s (upd (rw_mem s) i v) i true v else rw_push s (rw_mem s) i false m)
  end.
(** zk-mem.h:179-182 *)
Definition rw_check (s : rwst) : rwst :=
  {| rw_mem := []; rw_list := []; rw_step := 0; rw_checked := rw_checked s ++ [rw_list s] |}.
(** zk-mem.h:114-126; capacity is a field, not the size of mem *)
Fixpoint rw_read_all (s : rwst) (is : list nat) : option (rwst * list N) :=
  match is with
  | [] => Some (s, [])
  | i :: is' => match rw_read s i with
                | None => None
                | Some (s', v) => match rw_read_all s' is' with
                                  | None => None | Some (s'', vs) => Some (s'', v :: vs) end
                end
  end.
Fixpoint rw_write_all (s : rwst) (ivs : list (nat * N)) : option rwst :=
  match ivs with
  | [] => Some s
  | (i, v) :: r => match rw_write s i v with None => None | Some s' => rw_write_all s' r end
  end.
Definition rw_refresh (index_sz step_sz : nat) (s : rwst) : option rwst :=
  let capacity := 2 ^ index_sz in
  if Nat.eqb (rw_step s + capacity) (2 ^ (step_sz - 1)) then
    match rw_read_all s (seq 0 capacity) with
    | None => None
    | Some (s', vs) => rw_write_all (rw_check s') (combine (seq 0 capacity) vs)
    end
  else Some s.
Definition rw_do (index_sz step_sz : nat) (s : rwst) (o : rwop) : option rwst :=
  match o with
  | RRead i => match rw_read s i with None => None | Some (s', _) => Some s' end
  | RWrite i v => rw_write s i v
  | RAccess op i v => rw_access s op i v
  | RCheck => Some (rw_check s)
  | RRefresh => rw_refresh index_sz step_sz s
  end.
Fixpoint rw_run (index_sz step_sz : nat) (s : rwst) (os : list rwop) : option rwst :=
  match os with
  | [] => Some s
  | o :: os' => match rw_do index_sz step_sz s o with None => None | Some s' => rw_run index_sz step_sz s' os' end
  end.

(** ** ZkRamExt *)
Inductive wop : Type := WRead (i : nat) | WWrite (i : nat) (v : list N) | WCheck.
Record wst := { x_mem : list (list N); x_list : list wentry; x_step : nat; x_checked : list (list wentry) }.
(** zk-mem-ext.h:22-38: the cells are empty vectors *)
Definition x_init (index_sz : nat) : wst :=
  {| x_mem := repeat [] (2 ^ index_sz); x_list := []; x_step := 0; x_checked := [] |}.
(** zk-mem-ext.h:105-148: [nw] = val_uint64_sz; the row packing of a cell that was never written reads
    value[0] of an empty vector *)
Definition x_do (nw : nat) (s : wst) (o : wop) : option wst :=
  match o with
  | WRead i =>
      match cell (x_mem s) i with
      | Some v => if Nat.ltb (length v) nw || Nat.eqb (length v) 0 then None else
          Some {| x_mem := x_mem s;
                  x_list := x_list s ++ [{| w_idx := N.of_nat i; w_step := N.of_nat (x_step s); w_op := false; w_val := v |}];
                  x_step := S (x_step s); x_checked := x_checked s |}
      | None => None
      end
  | WWrite i v =>
      match cell (x_mem s) i with
      | Some _ => if Nat.eqb (length v) 0 then None else
          Some {| x_mem := upd (x_mem s) i v;
                  x_list := x_list s ++ [{| w_idx := N.of_nat i; w_step := N.of_nat (x_step s); w_op := true; w_val := v |}];
                  x_step := S (x_step s); x_checked := x_checked s |}
      | None => None
      end
  | WCheck => Some {| x_mem := []; x_list := []; x_step := 0; x_checked := x_checked s ++ [x_list s] |}
  end.
Fixpoint x_run (nw : nat) (s : wst) (os : list wop) : option wst :=
  match os with
  | [] => Some s
  | o :: os' => match x_do nw s o with None => None | Some s' => x_run nw s' os' end
  end.
(** zk-mem-ext.h:197-211: words of a packed row read back in check(); the bound nw - 2 is unsigned and
    wraps for nw = 1.  Reads (row number, high half?) in order. *)
Fixpoint x_unpack_loop (fuel nw j : nat) : option (list (nat * bool)) :=
  if N.ltb (N.of_nat j) (u64_sub (N.of_nat nw) 2) then
    match fuel with
    | 0 => None
    | S f => if Nat.leb nw (j + 1) then None else
             match x_unpack_loop f nw (j + 2) with
             | Some r => Some (((j + 1) / 2, true) :: ((j + 1) / 2, false) :: r) | None => None end
    end
  else if Nat.leb nw j then None
  else Some (((j + 1) / 2, true) :: (if Nat.odd nw then [((j + 1) / 2, false)] else [])).
Definition x_unpack_plan (nw : nat) : option (list (nat * bool)) :=
  match x_unpack_loop nw nw 1 with Some r => Some ((0, false) :: r) | None => None end.
