(** Gate-level model of the read-write memory ZKRAM, /repo/emp-zk/extensions/ram-zk/zk-mem.h: the calls read(), write(),
    access() and check() as the gates they add to a boolean session (BoolModel.v), the packed labels they hand to
    the set-equality test (RamModel.v, F2kModel.v).

    Simplifications, stated once:
    - A wire is its number in the session; an Integer is the list of its wires, lowest bit first.
    - [Integer(n, v, ALICE)] adds n private inputs, [Integer(n, v, PUBLIC)] n public constants.  reveal<...>(ALICE)
      sends nothing (zk-bool reveals to the prover locally) and adds no gate.
    - Integer comparison and Bit | are emp-tool's circuits (emp-tool is not part of /repo): [==] chains AND over the
      bitwise equalities starting from the constant true; [geq] is the negated top bit of the ripple-borrow difference,
      whose borrow is updated as borrow ^= (a ^ b) & (borrow ^ b) and not computed for the top bit; a | b is
      (a ^ b) ^ (a & b).  XOR gates of difference bits that nobody reads are left out: they cost no message.
    - C++ leaves the order of evaluation of the operands of one expression open; the model goes from left to right. *)
From Coq Require Import NArith List Bool Arith.
From Verif Require Import Word GF128 GfmulModel BoolModel F2kModel RamModel.
Import ListNotations.

(** * Building circuits: given the number of the next wire, the gates added and the result *)
Definition nwires (c : list gate) : nat :=
  length (filter (fun g => match g with GReveal _ => false | _ => true end) c).
Definition build (A : Type) : Type := nat -> list gate * A.
Definition b_ret {A} (a : A) : build A := fun _ => ([], a).
Definition b_bind {A B} (m : build A) (k : A -> build B) : build B :=
  fun w => let (g1, a) := m w in let (g2, b) := k a (w + nwires g1) in (g1 ++ g2, b).
(** one gate with one result wire *)
Definition b_gate (g : gate) : build nat := fun w => ([g], w).
Notation "x <- m ;; k" := (b_bind m (fun x => k)) (at level 100, m at next level, right associativity).

(** * emp-tool circuits *)
Definition b_or (a b : nat) : build nat :=
  x <- b_gate (GXor a b);; y <- b_gate (GAnd a b);; b_gate (GXor x y).
Fixpoint b_eq_from (res : nat) (ab : list (nat * nat)) : build nat :=
  match ab with
  | [] => b_ret res
  | (a, b) :: r => x <- b_gate (GXor a b);; y <- b_gate (GNot x);; z <- b_gate (GAnd res y);; b_eq_from z r
  end.
Definition b_eq (a b : list nat) : build nat := t <- b_gate (GPub true);; b_eq_from t (combine a b).
Fixpoint b_borrow (bw : nat) (ab : list (nat * nat)) : build nat :=
  match ab with
  | [] => b_ret bw
  | (a, b) :: r =>
      bxa <- b_gate (GXor a b);; bxc <- b_gate (GXor bw b);; t <- b_gate (GAnd bxa bxc);;
      bw' <- b_gate (GXor bw t);; b_borrow bw' r
  end.
Definition b_geq (a b : list nat) : build nat :=
  f <- b_gate (GPub false);; bw <- b_borrow f (combine (removelast a) (removelast b));;
  x <- b_gate (GXor (last a 0) (last b 0));; s <- b_gate (GXor x bw);; b_gate (GNot s).
Definition b_lt (a b : list nat) : build nat := g <- b_geq a b;; b_gate (GNot g).

(** * ZKRAM *)
(** the wires of one record *)
Record mrec := { m_idx : list nat; m_val : list nat; m_step : list nat; m_op : nat }.
Definition int_bits (n : nat) (v : N) : list bool := map (fun i => N.testbit v (N.of_nat i)) (seq 0 n).
(** calls of a program; [v] is the word the prover feeds, [MGates] stands for whatever the program computes in between *)
Inductive mop : Type :=
| MGates (gs : list gate)
| MRead (idx : list nat) (v : N)
| MWrite (idx val : list nat)
| MAccess (op : nat) (idx : list nat) (v : N).
Record mst := { m_gates : list gate; m_recs : list mrec }.
Section Calls.
  Variables (index_sz step_sz val_sz : nat).
  Definition m_next (s : mst) : nat := nwires (m_gates s).
  (** the number of records is the field step (zk-mem.h:77, 94, 110) *)
  Definition m_now (s : mst) : list gate := map GPub (int_bits step_sz (N.of_nat (length (m_recs s)))).
  Definition m_do (s : mst) (o : mop) : mst :=
    let w := m_next s in
    match o with
    | MGates gs => {| m_gates := m_gates s ++ gs; m_recs := m_recs s |}
    | MRead idx v =>                                                   (* zk-mem.h:82-97 *)
        {| m_gates := m_gates s ++ map GIn (int_bits val_sz v) ++ m_now s ++ [GPub false];
           m_recs := m_recs s ++ [{| m_idx := idx; m_val := seq w val_sz; m_step := seq (w + val_sz) step_sz;
                                     m_op := w + val_sz + step_sz |}] |}
    | MWrite idx val =>                                                (* zk-mem.h:99-113 *)
        {| m_gates := m_gates s ++ m_now s ++ [GPub true];
           m_recs := m_recs s ++ [{| m_idx := idx; m_val := val; m_step := seq w step_sz; m_op := w + step_sz |}] |}
    | MAccess op idx v =>                                              (* zk-mem.h:57-80 *)
        {| m_gates := m_gates s ++ map GIn (int_bits val_sz v) ++ m_now s;
           m_recs := m_recs s ++ [{| m_idx := idx; m_val := seq w val_sz; m_step := seq (w + val_sz) step_sz;
                                     m_op := op |}] |}
    end.
  Definition m_run (os : list mop) : mst := fold_left m_do os {| m_gates := []; m_recs := [] |}.

  (** zk-mem.h:141-153: the claimed sorted list; [e_idx] is fed with index_sz + 1 bits *)
  Definition m_feed (e : entry) : list gate :=
    map GIn (int_bits val_sz (e_val e) ++ [e_op e] ++ int_bits step_sz (e_step e) ++ int_bits (index_sz + 1) (e_idx e)).
  Definition m_fed (w : nat) : mrec :=
    {| m_val := seq w val_sz; m_op := w + val_sz; m_step := seq (w + val_sz + 1) step_sz;
       m_idx := seq (w + val_sz + 1 + step_sz) (index_sz + 1) |}.
  Definition m_width : nat := val_sz + 1 + step_sz + (index_sz + 1).
  Definition m_sorted (w n : nat) : list mrec := map (fun i => m_fed (w + i * m_width)) (seq 0 n).

  (** zk-mem.h:156-163 *)
  Fixpoint b_order (cond : nat) (l : list mrec) : build nat :=
    match l with
    | a :: (b :: _) as r =>
        eq <- b_eq (m_idx a) (m_idx b);;
        lt <- b_lt (m_idx a) (m_idx b);;
        ls <- b_lt (m_step a) (m_step b);;
        es <- b_gate (GAnd eq ls);;
        o1 <- b_or lt es;;
        c1 <- b_gate (GAnd cond o1);;
        ev <- b_eq (m_val a) (m_val b);;
        o2 <- b_or ev (m_op b);;
        c2 <- b_gate (GAnd c1 o2);;
        o3 <- b_or eq (m_op b);;
        c3 <- b_gate (GAnd c2 o3);;
        b_order c3 r
    | _ => b_ret cond
    end.
  (** zk-mem.h:155-164 *)
  Definition b_condition (l : list mrec) : build nat := t <- b_gate (GPub true);; b_order t l.
  (** zk-mem.h:128-164, the boolean part of check() after [os], then [post]: whatever the session does afterwards.
      [claims] is what the prover feeds as sorted list, one entry per record. *)
  Definition m_check (os : list mop) (claims : list entry) (post : list gate) : list gate :=
    let s := m_run os in
    let sorted := m_sorted (m_next s) (length (m_recs s)) in
    let feeds := flat_map m_feed claims in
    let (gs, cond) := b_condition sorted (m_next s + nwires feeds) in
    m_gates s ++ feeds ++ gs ++ [GReveal cond] ++ post.
  (** position of the revealed condition among the revealed bits *)
  Definition m_reveal (os : list mop) : nat :=
    length (filter (fun g => match g with GReveal _ => true | _ => false end) (m_gates (m_run os))).
  Definition m_lists (os : list mop) : list mrec * list mrec :=
    let s := m_run os in (m_sorted (m_next s) (length (m_recs s)), m_recs s).
  (** zk-mem.h:34-47 and :171-175: one packed label per record *)
  Definition m_pack (labels : list N) (m : mrec) : N :=
    rw_pack_mac index_sz step_sz val_sz (map (wire labels) (m_idx m)) (map (wire labels) (m_val m))
      (map (wire labels) (m_step m)) (wire labels (m_op m)).
  (** the elements of the set-equality test: sorted list, then recorded list (zk-mem.h:177-178) *)
  Definition m_macs (labels : list N) (os : list mop) (i : nat) : N :=
    nth i (map (m_pack labels) (fst (m_lists os) ++ snd (m_lists os))) 0%N.
End Calls.
