(** Model of emp-zk/extensions/lowmc.h: the plain (bool) path on arrays and the authenticated
    (Bit) path as the sequence of gates it performs in the boolean engine of BoolModel.v.

    The template parameters are those of lowmc.h:13-18 and stay variable: [nb] S-boxes, block
    size [n], key size [k], [nr] rounds; the instance of the source is at the end of the file.
    Arrays are lists of bool read with [nth _ _ false]; the three matrix arrays have the sizes
    allocated in init (lowmc.h:206-249) and arbitrary contents (in the source they come from a
    PRG seeded with zero_block, which is not modelled). *)
From Coq Require Import List Bool Arith.
From Verif Require Import BoolModel.
Import ListNotations.

(** reading [a[i]] of a C array *)
Definition rd {A} (d : A) (a : list A) (i : nat) : A := nth i a d.
(** [a[i] = x] *)
Fixpoint wr {A} (a : list A) (i : nat) (x : A) : list A :=
  match a, i with
  | [], _ => []
  | _ :: t, 0 => x :: t
  | y :: t, S i' => y :: wr t i' x
  end.

(** * Plain path *)
Section Plain.
  Variables (nb n k nr : nat).

  (** lowmc.h:105-109 ZKBitVecXor<bool>: out[i] = a[i] ^ b[i] for i < len *)
  Definition bv_xor (a b : list bool) (len : nat) : list bool :=
    map (fun i => xorb (rd false a i) (rd false b i)) (seq 0 len).

  (** lowmc.h:111-124 Substitution<bool>, called in place (out == in, :64/:75): iteration [i]
      reads pt[0..2] at 3i before it writes pto[0..2]; the final memcpy copies the identity part
      onto itself. *)
  Definition sub_box (st : list bool) (i : nat) : list bool :=
    let p0 := rd false st (3 * i) in let p1 := rd false st (3 * i + 1) in let p2 := rd false st (3 * i + 2) in
    let a := xorb p0 (p1 && p2) in
    let b := xorb p0 (xorb p1 (p0 && p2)) in
    let c := xorb p0 (xorb p1 (xorb p2 (p0 && p1))) in
    wr (wr (wr st (3 * i) a) (3 * i + 1) b) (3 * i + 2) c.
  Definition substitution (st : list bool) : list bool := fold_left sub_box (seq 0 nb) st.

  (** lowmc.h:126-138 MultiplyWithGF2Matrix(bool): buf[j] = pt[j] & in[0], then for i = 1..n-1,
      pt += n: buf[j] ^= pt[j] & in[i]. *)
  Definition mul_row0 (m v : list bool) : list bool :=
    map (fun j => rd false m j && rd false v 0) (seq 0 n).
  Definition mul_row (m v buf : list bool) (i : nat) : list bool :=
    map (fun j => xorb (rd false buf j) (rd false m (i * n + j) && rd false v i)) (seq 0 n).
  Definition mul_lin (m v : list bool) : list bool :=
    fold_left (mul_row m v) (seq 1 (n - 1)) (mul_row0 m v).

  (** lowmc.h:173-180 MultiplyWithGF2Matrix_Key(bool): out[i] = pt[0] & k[0], then
      out[i] ^= pt[j] & k[j] for j = 1..k-1, with pt += k after each i. *)
  Definition key_bit (m key : list bool) (i : nat) : bool :=
    fold_left (fun acc j => xorb acc (rd false m (i * k + j) && rd false key j))
              (seq 1 (k - 1)) (rd false m (i * k) && rd false key 0).
  Definition mul_key (m key : list bool) : list bool := map (key_bit m key) (seq 0 n).

  (** lowmc.h:194-204 keyschedule, roundkeys_loc: nr+1 blocks, one after the other *)
  Definition keyschedule (km key : list bool) : list bool :=
    flat_map (fun r => mul_key (skipn (r * n * k) km) key) (seq 0 (nr + 1)).

  (** lowmc.h:72-82 encrypt_block(bool) *)
  Definition round (lin rc rk st : list bool) (r : nat) : list bool :=
    let st := substitution st in
    let st := mul_lin (skipn ((r - 1) * n * n) lin) st in
    let st := bv_xor st (skipn ((r - 1) * n) rc) n in
    bv_xor st (skipn (r * n) rk) n.
  Definition encrypt_block (lin rc rk msg : list bool) : list bool :=
    fold_left (round lin rc rk) (seq 1 nr) (bv_xor msg rk n).
  (** lowmc.h:56-59 encrypt(bool, nblocks) *)
  Definition encrypt (lin rc rk msg : list bool) (nblocks : nat) : list bool :=
    flat_map (fun i => encrypt_block lin rc rk (skipn (i * n) msg)) (seq 0 nblocks).
End Plain.

(** * Authenticated path

    A Bit is the number of a wire of the engine; the program is the list of gates.  [w] is the
    number of the next wire.  [z] is a wire whose label is zero_block (lowmc.h:240 choice[0]);
    it is produced by [GXor 0 0], whose label is L xor L = 0 for both parties.  The source
    xors labels directly in the matrix products (buf[j].bit ^ choice[pt[j]]), which is what
    GXor does to labels (emp-zk-bool's xor_gate), so those xors appear as GXor gates. *)
Section Circuit.
  Variables (nb n k nr : nat) (z : nat).
  (** result of a piece of code: gates and the next wire number; outputs are wire numbers *)
  Definition code : Type := (list gate * list nat)%type.

  (** lowmc.h:105-109 ZKBitVecXor<Bit> *)
  Definition g_xor (w : nat) (a b : list nat) (len : nat) : code :=
    (map (fun i => GXor (rd 0 a i) (rd 0 b i)) (seq 0 len), seq w len).

  (** lowmc.h:116-118 one S-box: gates in evaluation order *)
  Definition g_sbox (w p0 p1 p2 : nat) : list gate :=
    [GAnd p1 p2; GXor p0 w;
     GAnd p0 p2; GXor p1 (w + 2); GXor p0 (w + 3);
     GAnd p0 p1; GXor p2 (w + 5); GXor p1 (w + 6); GXor p0 (w + 7)].
  (** lowmc.h:111-124 Substitution<Bit>, in place *)
  Definition g_sub_box (w : nat) (c : code) (i : nat) : code :=
    let '(gs, st) := c in
    let w := w + length gs in
    (gs ++ g_sbox w (rd 0 st (3 * i)) (rd 0 st (3 * i + 1)) (rd 0 st (3 * i + 2)),
     wr (wr (wr st (3 * i) (w + 1)) (3 * i + 1) (w + 4)) (3 * i + 2) (w + 8)).
  Definition g_substitution (w : nat) (st : list nat) : code :=
    fold_left (g_sub_box w) (seq 0 nb) ([], st).

  (** lowmc.h:145,150,186,189: choice[pt] *)
  Definition g_choice (b : bool) (x : nat) : nat := if b then x else z.
  (** lowmc.h:140-155 MultiplyWithGF2Matrix(Bit) *)
  Definition g_mul_row (w : nat) (m : list bool) (v : list nat) (c : code) (i : nat) : code :=
    let '(gs, buf) := c in
    (gs ++ map (fun j => GXor (rd 0 buf j) (g_choice (rd false m (i * n + j)) (rd 0 v i))) (seq 0 n),
     seq (w + length gs) n).
  Definition g_mul_lin (w : nat) (m : list bool) (v : list nat) : code :=
    fold_left (g_mul_row w m v) (seq 1 (n - 1))
              ([], map (fun j => g_choice (rd false m j) (rd 0 v 0)) (seq 0 n)).

  (** lowmc.h:182-192 MultiplyWithGF2Matrix_Key(Bit): one output *)
  Definition g_key_step (w : nat) (m : list bool) (key : list nat) (i : nat)
      (c : list gate * nat) (j : nat) : list gate * nat :=
    let '(gs, o) := c in
    (gs ++ [GXor o (g_choice (rd false m (i * k + j)) (rd 0 key j))], w + length gs).
  Definition g_key_bit (w : nat) (m : list bool) (key : list nat) (i : nat) : list gate * nat :=
    fold_left (g_key_step w m key i) (seq 1 (k - 1)) ([], g_choice (rd false m (i * k)) (rd 0 key 0)).
  (** all outputs of a loop, one after the other *)
  Definition g_loop (f : nat -> nat -> code) (w : nat) (is : list nat) : code :=
    fold_left (fun (c : code) i => let '(gs, os) := c in
                 let '(gs', os') := f (w + length gs) i in (gs ++ gs', os ++ os')) is ([], []).
  Definition g_mul_key (w : nat) (m : list bool) (key : list nat) : code :=
    g_loop (fun w i => let '(gs, o) := g_key_bit w m key i in (gs, [o])) w (seq 0 n).
  (** lowmc.h:194-204 keyschedule, roundkeys *)
  Definition g_keyschedule (w : nat) (km : list bool) (key : list nat) : code :=
    g_loop (fun w r => g_mul_key w (skipn (r * n * k) km) key) w (seq 0 (nr + 1)).

  (** lowmc.h:61-70 encrypt_block(Bit) *)
  Definition g_round (w : nat) (lin : list bool) (rc rk : list nat) (c : code) (r : nat) : code :=
    let '(gs, st) := c in
    let '(g1, st) := g_substitution (w + length gs) st in
    let gs := gs ++ g1 in
    let '(g2, st) := g_mul_lin (w + length gs) (skipn ((r - 1) * n * n) lin) st in
    let gs := gs ++ g2 in
    let '(g3, st) := g_xor (w + length gs) st (skipn ((r - 1) * n) rc) n in
    let gs := gs ++ g3 in
    let '(g4, st) := g_xor (w + length gs) st (skipn (r * n) rk) n in
    (gs ++ g4, st).
  Definition g_encrypt_block (w : nat) (lin : list bool) (rc rk msg : list nat) : code :=
    fold_left (g_round w lin rc rk) (seq 1 nr) (g_xor w msg rk n).
  (** lowmc.h:51-54 encrypt(Bit, nblocks) *)
  Definition g_encrypt (w : nat) (lin : list bool) (rc rk msg : list nat) (nblocks : nat) : code :=
    g_loop (fun w i => g_encrypt_block w lin rc rk (skipn (i * n) msg)) w (seq 0 nblocks).
End Circuit.

(** * A whole program: ZKLowMC(key) (lowmc.h:23-26, 194-249), [nblocks] message blocks fed
    privately, encrypt, reveal of every ciphertext bit to PUBLIC.  The zero label is the wire
    after the key. *)
Section Program.
  Variables (nb n k nr : nat).
  Definition lowmc_setup (lin rc km key : list bool) : list gate * (list nat * list nat) :=
    let g0 := map GIn key ++ [GXor 0 0] ++ map GPub rc in
    let z := length key in
    let keyw := seq 0 (length key) in
    let rcw := seq (z + 1) (length rc) in
    let '(g1, rk) := g_keyschedule n k nr z (length g0) km keyw in
    (g0 ++ g1, (rcw, rk)).
  Definition lowmc_program (lin rc km key msg : list bool) (nblocks : nat) : list gate :=
    let '(g0, (rcw, rk)) := lowmc_setup lin rc km key in
    let g1 := g0 ++ map GIn msg in
    let '(g2, ct) := g_encrypt nb n nr (length key) (length g1) lin rcw rk
                       (seq (length g0) (length msg)) nblocks in
    g1 ++ g2 ++ map GReveal ct.
End Program.

(** lowmc.h:13-18 *)
Definition numofboxes : nat := 15.
Definition blocksize : nat := 64.
Definition keysize : nat := 128.
Definition rounds : nat := 11.
