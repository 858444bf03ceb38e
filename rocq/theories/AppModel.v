(** The arithmetic test programs shipped with the library, as sequences of calls of its interface:

    - /repo/test/arith/sis.cpp:19-80          knowledge of a short solution of A s = t
    - /repo/test/arith/matrix_mul.cpp:20-65   product of two committed matrices
    - /repo/test/arith/zk_proof.cpp:19-82     a chain of additions and multiplications, then three batches of openings
    - /repo/test/arith/inner_prdt.cpp:12-46   inner products
    - /repo/test/arith/polynomial.cpp:12-48   degree-2 polynomials
    - /repo/test/arith/circuit_scalability.cpp:10-50   the chain of zk_proof.cpp alone
    - /repo/test/arith/input_scalability.cpp:10-41     inputs only

    An IntFp object is the number of its wire (ClientModel); assigning to an array element replaces that number, so a
    value that is overwritten stays on its wire.  Simplifications: arrays are functions on indices (never read outside
    their bounds here); the public data (A, t, the expected values, the coefficients) and the witness are parameters, not
    drawn from rand(); clocks and printing are left out; the matrix index i*m+j does not overflow int. *)
From Coq Require Import NArith List Bool Arith.
From Verif Require Import Word FpModel ArithModel.
Import ListNotations.

(** the calls made so far and the number of objects created *)
Record ctx := { code : list agate; next : nat }.
Definition start : ctx := {| code := []; next := 0 |}.
(** a call that creates an object (constructor, operator) and one that does not (reveal_check, ..) *)
Definition obj (g : agate) (c : ctx) : nat * ctx := (next c, {| code := code c ++ [g]; next := S (next c) |}).
Definition query (g : agate) (c : ctx) : ctx := {| code := code c ++ [g]; next := next c |}.
(** for (int i = 0; i < n; ++i) *)
Definition for_ {S : Type} (n : nat) (body : nat -> S -> S) (s : S) : S := fold_left (fun s i => body i s) (seq 0 n) s.
Definition put (a : nat -> nat) (i v : nat) : nat -> nat := fun j => if Nat.eqb j i then v else a j.

(** three arrays of objects *)
Record arrs := { ax : nat -> nat; ay : nat -> nat; az : nat -> nat; cx : ctx }.
Definition arrs0 (c : ctx) : arrs := {| ax := fun _ => 0; ay := fun _ => 0; az := fun _ => 0; cx := c |}.
Definition set_x (i : nat) (g : agate) (s : arrs) : arrs :=
  {| ax := put (ax s) i (next (cx s)); ay := ay s; az := az s; cx := snd (obj g (cx s)) |}.
Definition set_y (i : nat) (g : agate) (s : arrs) : arrs :=
  {| ax := ax s; ay := put (ay s) i (next (cx s)); az := az s; cx := snd (obj g (cx s)) |}.
Definition set_z (i : nat) (g : agate) (s : arrs) : arrs :=
  {| ax := ax s; ay := ay s; az := put (az s) i (next (cx s)); cx := snd (obj g (cx s)) |}.
Definition with_cx (s : arrs) (c : ctx) : arrs := {| ax := ax s; ay := ay s; az := az s; cx := c |}.

(** batch_reveal, batch_reveal_check, batch_reveal_check_zero: int_fp.h:71-83; one element after the other, ostriple.h:294-337 *)
Definition reveal_batch (len : nat) (a : nat -> nat) (c : ctx) : ctx := for_ len (fun i c => query (AReveal (a i)) c) c.
Definition check_batch (len : nat) (a : nat -> nat) (e : nat -> N) (c : ctx) : ctx := for_ len (fun i c => query (ACheck (a i) (e i)) c) c.
Definition zero_batch (len : nat) (a : nat -> nat) (c : ctx) : ctx := for_ len (fun i c => query (AZero (a i)) c) c.

(** ** sis.cpp: [ax] is vec_s, [ay] is vec_t, [az] is vec_r *)
Section Sis.
  Variables (n m : nat) (A s t : nat -> N).
  (** sis.cpp:54-57 *)
  Definition sis_init (st : arrs) : arrs :=
    for_ (n + m) (fun i => set_y i (APub 0)) (for_ m (fun i => set_x i (AIn (s i))) st).
  (** sis.cpp:60-61 *)
  Definition sis_squares (st : arrs) : arrs := for_ m (fun i st => set_z i (AMul (ax st i) (ax st i)) st) st.
  (** sis.cpp:64-69 *)
  Definition sis_cell (i j : nat) (st : arrs) : arrs :=
    let '(tmp, c) := obj (AMulC (ax st j) (A (i * m + j))) (cx st) in
    set_y i (AAdd (ay st i) tmp) (with_cx st c).
  Definition sis_rows (st : arrs) : arrs := for_ n (fun i => for_ m (sis_cell i)) st.
  (** sis.cpp:72-75 *)
  Definition sis_diffs (st : arrs) : arrs :=
    for_ m (fun i st => let st := set_x i (AMulC (ax st i) (PR - 1)) st in set_y (i + n) (AAdd (az st i) (ax st i)) st) st.
  (** sis.cpp:52-77 *)
  Definition sis_round (st : arrs) : arrs := sis_diffs (sis_rows (sis_squares (sis_init st))).
  (** sis.cpp:32-34: the last m entries of t are 0; :79 after the loop *)
  Definition sis_want (i : nat) : N := if Nat.ltb i n then t i else 0%N.
  Definition sis (rounds : nat) : list agate :=
    let st := for_ rounds (fun _ => sis_round) (arrs0 start) in
    code (check_batch (n + m) (ay st) sis_want (cx st)).
End Sis.

(** ** matrix_mul.cpp: [ax], [ay], [az] are mat_a, mat_b, mat_c *)
Section MatMul.
  Variables (n : nat) (a b t : nat -> N).
  (** matrix_mul.cpp:48-52 *)
  Definition mm_init (st : arrs) : arrs :=
    for_ (n * n) (fun i st => set_z i (APub 0) (set_y i (AIn (b i)) (set_x i (AIn (a i)) st))) st.
  (** matrix_mul.cpp:54-61 *)
  Definition mm_cell (i j k : nat) (st : arrs) : arrs :=
    let '(tmp, c) := obj (AMul (ax st (i * n + j)) (ay st (j * n + k))) (cx st) in
    set_z (i * n + k) (AAdd (az st (i * n + k)) tmp) (with_cx st c).
  Definition mm_loop (st : arrs) : arrs := for_ n (fun i => for_ n (fun j => for_ n (mm_cell i j))) st.
  (** matrix_mul.cpp:63 *)
  Definition matmul : list agate :=
    let st := mm_loop (mm_init (arrs0 start)) in code (check_batch (n * n) (az st) t (cx st)).
End MatMul.

(** ** zk_proof.cpp: the chain (:19-39), then [ax], [ay], [az] are di, ei, fi (:52-78) *)
Section Chain.
  Variables (n : nat) (a0 b0 cr : N).
  Definition ch_step (_ : nat) (s : nat * nat * ctx) : nat * nat * ctx :=
    let '(a, b, c) := s in
    let '(b, c) := obj (AAdd b a) c in
    let '(a, c) := obj (AMul b a) c in (a, b, c).
  (** [c] is created with the public value 4 (:22) and overwritten (:36-37) *)
  Definition chain (c : ctx) : ctx :=
    let '(a, c) := obj (AIn a0) c in
    let '(b, c) := obj (AIn b0) c in
    let '(_, c) := obj (APub 4) c in
    let '(a, b, c) := for_ n ch_step (a, b, c) in
    let '(z, c) := obj (AMul a b) c in
    let '(z, c) := obj (AAdd z a) c in
    query (ACheck z cr) c.
  Variables (sz : nat) (d e f dd ee : nat -> N).
  Definition zk_item (pri : nat) (i : nat) (st : arrs) : arrs :=
    let st := set_x i (AIn (d i)) st in
    let st := set_y i (AIn (e i)) st in
    let st := set_x i (AMul (ax st i) (ay st i)) st in
    let st := set_y i (AAdd (ax st i) (ay st i)) st in
    let st := set_z i (AIn (f i)) st in
    let st := set_z i (AMul pri (az st i)) st in
    set_z i (AAdd (ay st i) (az st i)) st.
  Definition zk_items (c : ctx) : arrs := let '(pri, c) := obj (APub (PR - 1)) c in for_ sz (zk_item pri) (arrs0 c).
  Definition zk_proof : list agate :=
    let st := zk_items (chain start) in
    code (zero_batch sz (az st) (check_batch sz (ay st) ee (reveal_batch sz (ax st) (cx st)))).
  (** :73-74 the verifier compares the opened words with its own products and stops when they differ *)
  Definition zk_memcmp (outs : list N) : bool := if list_eq_dec N.eq_dec outs (map dd (seq 0 sz)) then true else false.
End Chain.

(** ** inner_prdt.cpp:38-44 and polynomial.cpp:39-45: x[0..2 sz) is fed, then the same relation is queued [rep] times *)
Definition feed_all (len : nat) (w : nat -> N) : arrs := for_ len (fun i => set_x i (AIn (w i))) (arrs0 start).
Definition sub_arr (a : nat -> nat) (off len : nat) : list nat := map (fun i => a (off + i)) (seq 0 len).
Definition inner_app (sz rep : nat) (w : nat -> N) (constant : N) : list agate :=
  let st := feed_all (2 * sz) w in
  code (for_ rep (fun _ c => query (AInner (sub_arr (ax st) 0 sz) (sub_arr (ax st) sz sz) constant) c) (cx st)).
Definition poly_app (sz rep : nat) (w : nat -> N) (coeff : list N) : list agate :=
  let st := feed_all (2 * sz) w in
  code (for_ rep (fun _ c => query (APoly (sub_arr (ax st) 0 sz) (sub_arr (ax st) sz sz) coeff) c) (cx st)).

(** ** circuit_scalability.cpp:21-43: the statements are those of zk_proof.cpp:19-39 *)
Definition circuit_app (n : nat) (a0 b0 cr : N) : list agate := code (chain n a0 b0 cr start).
(** ** input_scalability.cpp:20-33: [sz] inputs one by one, then the same array with batch_feed into the same objects *)
Definition input_app (sz : nat) (w : nat -> N) : list agate :=
  code (cx (for_ sz (fun i => set_x i (AIn (w i))) (feed_all sz w))).
