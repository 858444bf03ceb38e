(** Gate-level model of the wide memory ZkRamExt, /repo/emp-zk/extensions/ram-zk/zk-mem-ext.h: read(), write() and
    check() as the gates they add to a boolean session (BoolModel.v), and the packed and compressed labels they hand to
    the set-equality test (RamModel.v, F2kModel.v).

    The simplifications are those stated at the top of RamGateModel.v, whose circuit builders are used here; in addition
    [a != b] is the negation of [a == b] (emp-tool).  Every value has [nw] = val_uint64_sz words of 64 bits; nw = 1 makes
    check() read outside its vectors (see x_unpack_plan in RamModel.v) and is excluded by the theorems.  refresh() is not
    modelled at this level (see RamProgModel.v). *)
From Coq Require Import NArith List Bool Arith.
From Verif Require Import Word GF128 GfmulModel BoolModel F2kModel RamModel RamGateModel.
Import ListNotations.

(** the wires of one record: index, words of the value, step, op *)
Record zrec := { z_idx : list nat; z_val : list (list nat); z_step : list nat; z_op : nat }.
(** calls of a program; [vs] are the words the prover feeds, [ZGates] stands for whatever the program computes in between *)
Inductive zop : Type :=
| ZGates (gs : list gate)
| ZRead (idx : list nat) (vs : list N)
| ZWrite (idx : list nat) (val : list (list nat)).
Record zst := { z_gates : list gate; z_recs : list zrec }.
(** [n] words of 64 wires from wire [w] on *)
Definition z_words (w n : nat) : list (list nat) := map (fun j => seq (w + 64 * j) 64) (seq 0 n).
(** Integer(64, v, ALICE) for every word *)
Definition word_bits (vs : list N) : list bool := flat_map (int_bits 64) vs.
Section Calls.
  Variables (index_sz step_sz nw : nat).
  Definition z_next (s : zst) : nat := nwires (z_gates s).
  (** the number of records is the field step (zk-mem-ext.h:126, 146) *)
  Definition z_now (s : zst) : list gate := map GPub (int_bits step_sz (N.of_nat (length (z_recs s)))).
  Definition z_do (s : zst) (o : zop) : zst :=
    let w := z_next s in
    match o with
    | ZGates gs => {| z_gates := z_gates s ++ gs; z_recs := z_recs s |}
    | ZRead idx vs =>                                                  (* zk-mem-ext.h:105-128 *)
        {| z_gates := z_gates s ++ map GIn (word_bits vs) ++ z_now s ++ [GPub false];
           z_recs := z_recs s ++ [{| z_idx := idx; z_val := z_words w nw; z_step := seq (w + 64 * nw) step_sz;
                                     z_op := w + 64 * nw + step_sz |}] |}
    | ZWrite idx val =>                                                (* zk-mem-ext.h:130-148 *)
        {| z_gates := z_gates s ++ z_now s ++ [GPub true];
           z_recs := z_recs s ++ [{| z_idx := idx; z_val := val; z_step := seq w step_sz; z_op := w + step_sz |}] |}
    end.
  Definition z_run (os : list zop) : zst := fold_left z_do os {| z_gates := []; z_recs := [] |}.

  (** zk-mem-ext.h:191-226: the claimed sorted list *)
  Definition z_feed (e : wentry) : list gate :=
    map GIn (word_bits (w_val e) ++ [w_op e] ++ int_bits step_sz (w_step e) ++ int_bits index_sz (w_idx e)).
  Definition z_fed (w : nat) : zrec :=
    {| z_val := z_words w nw; z_op := w + 64 * nw; z_step := seq (w + 64 * nw + 1) step_sz;
       z_idx := seq (w + 64 * nw + 1 + step_sz) index_sz |}.
  Definition z_width : nat := 64 * nw + 1 + step_sz + index_sz.
  Definition z_sorted (w n : nat) : list zrec := map (fun i => z_fed (w + i * z_width)) (seq 0 n).

  (** zk-mem-ext.h:232-235 *)
  Fixpoint b_more_eq (eq : nat) (ab : list (list nat * list nat)) : build nat :=
    match ab with
    | [] => b_ret eq
    | (a, b) :: r => e <- b_eq a b;; eq' <- b_gate (GAnd eq e);; b_more_eq eq' r
    end.
  Definition b_words_eq (a b : list (list nat)) : build nat :=
    e <- b_eq (hd [] a) (hd [] b);; b_more_eq e (combine (tl a) (tl b)).
  (** zk-mem-ext.h:229-238 *)
  Fixpoint b_worder (cond : nat) (l : list zrec) : build nat :=
    match l with
    | a :: (b :: _) as r =>
        eq <- b_eq (z_idx a) (z_idx b);;
        neq <- b_gate (GNot eq);;
        less <- b_lt (z_step a) (z_step b);;
        veq <- b_words_eq (z_val a) (z_val b);;
        same <- b_gate (GNot neq);;
        t1 <- b_gate (GAnd same less);;
        rd <- b_gate (GNot (z_op b));;
        t2 <- b_gate (GAnd rd veq);;
        t3 <- b_or t2 (z_op b);;
        t4 <- b_gate (GAnd t1 t3);;
        t5 <- b_or neq t4;;
        c <- b_gate (GAnd cond t5);;
        b_worder c r
    | _ => b_ret cond
    end.
  (** zk-mem-ext.h:228-238 *)
  Definition b_wcondition (l : list zrec) : build nat := t <- b_gate (GPub true);; b_worder t l.
  (** zk-mem-ext.h:163-246, the boolean part of check() after [os], then [post]: whatever the session does afterwards.
      [claims] is what the prover feeds as sorted list, one entry per record. *)
  Definition z_check (os : list zop) (claims : list wentry) (post : list gate) : list gate :=
    let s := z_run os in
    let sorted := z_sorted (z_next s) (length (z_recs s)) in
    let feeds := flat_map z_feed claims in
    let (gs, cond) := b_wcondition sorted (z_next s + nwires feeds) in
    z_gates s ++ feeds ++ gs ++ [GReveal cond] ++ post.
  (** position of the revealed condition among the revealed bits *)
  Definition z_reveal (os : list zop) : nat :=
    length (filter (fun g => match g with GReveal _ => true | _ => false end) (z_gates (z_run os))).
  Definition z_lists (os : list zop) : list zrec * list zrec :=
    let s := z_run os in (z_sorted (z_next s) (length (z_recs s)), z_recs s).
  (** zk-mem-ext.h:44-77, 250-255 and 278-299: one packed row of labels per record, compressed with [coef] *)
  Definition z_pack (coef labels : list N) (m : zrec) : N :=
    match ext_pack_mac (map (wire labels) (z_idx m)) (map (map (wire labels)) (z_val m)) (map (wire labels) (z_step m))
            (wire labels (z_op m)) with
    | Some row => compress coef row
    | None => 0%N
    end.
  (** the elements of the set-equality test: sorted list, then recorded list (zk-mem-ext.h:264-271) *)
  Definition z_macs (coef labels : list N) (os : list zop) (i : nat) : N :=
    nth i (map (z_pack coef labels) (fst (z_lists os) ++ snd (z_lists os))) 0%N.
End Calls.
