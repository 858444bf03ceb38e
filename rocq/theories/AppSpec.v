(** What the arithmetic test programs are meant to show, without reference to the library: relations between the
    committed values (lists of field elements, in the order they are fed) and the public data.  *)
From Coq Require Import NArith List Bool Arith.
From Verif Require Import ArithModel ArithSpec BoolSpec GameSpec GameArithSpec.
Import ListNotations.

Fixpoint fsum (n : nat) (f : nat -> N) : N := match n with 0 => 0%N | S k => (fsum k f + f k)%N end.
Definition forall_lt (n : nat) (P : nat -> bool) : bool := forallb P (seq 0 n).
Definition eqm (a b : N) : bool := N.eqb (a mod prm) (b mod prm).

(** short integer solution: a vector of bits with A s = t, A stored by rows *)
Definition sis_rel (n m : nat) (A t : nat -> N) (s : nat -> N) : bool :=
  forall_lt m (fun j => N.eqb (s j) 0 || N.eqb (s j) 1) &&
  forall_lt n (fun i => eqm (fsum m (fun j => A (i * m + j)%nat * s j)%N) (t i)).
(** the vector fed in round [r] (from 0) *)
Definition sis_part (m r : nat) (ins : list N) (j : nat) : N := nth (r * m + j) ins 0%N.

(** C = A B, stored by rows; a and b are fed alternately *)
Definition mm_rel (n : nat) (t : nat -> N) (ins : list N) : bool :=
  let a i := nth (2 * i) ins 0%N in let b i := nth (2 * i + 1) ins 0%N in
  forall_lt n (fun i => forall_lt n (fun k => eqm (fsum n (fun j => a (i * n + j)%nat * b (j * n + k)%nat)%N) (t (i * n + k)))).

(** the chain b := b + a; a := b a, [n] times, then a b + a *)
Fixpoint chain_val (n : nat) (a b : N) : N :=
  match n with 0 => ((a * b + a) mod prm)%N | S k => let b := ((b + a) mod prm)%N in chain_val k ((b * a) mod prm)%N b end.
(** x_i y_i = d_i, x_i y_i + y_i = e_i = z_i; the triples (x, y, z) follow the two chain inputs *)
Definition zk_rel (n sz : nat) (cr : N) (dd ee : nat -> N) (ins : list N) : bool :=
  let x i := nth (2 + 3 * i) ins 0%N in let y i := nth (3 + 3 * i) ins 0%N in let z i := nth (4 + 3 * i) ins 0%N in
  eqm (chain_val n (nth 0 ins 0%N) (nth 1 ins 0%N)) cr &&
  forall_lt sz (fun i => eqm (x i * y i) (dd i) && eqm (x i * y i + y i) (ee i) && eqm (x i * y i + y i) (z i)).

(** sum of c_(i+1) x_i y_i + c_0; the y follow the x *)
Definition poly_rel (sz : nat) (coeff : nat -> N) (ins : list N) : bool :=
  eqm (fsum sz (fun i => coeff (S i) * (nth i ins 0 * nth (sz + i)%nat ins 0))%N + coeff 0%nat)%N 0.

(** an execution is accepted; [look] is what the verifier's program does with the opened words *)
Section App.
  Variables (pub_mac : N) (pU pMac : nat -> N) (t csz psz : nat) (c : list agate).
  Variables (D : Type) (Deqb : D -> D -> bool) (H : list N -> D).
  Variables (word : list (list N) -> list N -> nat -> N).
  Variables (reply preply : list (list N) -> list N -> nat -> N * N) (digest : list (list N) -> list N -> D).
  Variables (look : list N -> bool).
  Definition app_accepts (s : list (list N)) (r : list N) (d : N) : bool :=
    match agame_exec pub_mac pU pMac t csz psz c word reply preply s r d with
    | Some v => let '(e, ch) := av_outcome Deqb H v (digest s r) in negb e && negb ch && look (av_outs v)
    | None => false
    end.
  (** accepted although the committed inputs are not in the relation *)
  Definition app_fooled (R : list N -> bool) (s : list (list N)) (r : list N) (d : N) : bool :=
    app_accepts s r d && negb (R (acommitted pU csz psz c word s r)).
End App.

(** ** the claims about a program *)
(** a prover that runs [cp] is accepted by a verifier that runs [cv]: ideal correlations, any key, any challenges *)
Definition accepted_by (cp cv : list agate) (look : list N -> bool) : Prop :=
  forall pub_mac pU pMac threads csz psz seeds pseeds d,
  vole_ok pU pMac -> (pub_mac < prm)%N -> 1 <= threads <= 32 -> (forall k, (pseeds k < 2 ^ 64)%N) -> (d < prm)%N ->
  exists p v, ap_exec pub_mac (vole_block pU pMac) threads csz psz seeds pseeds cp = Some p /\
    av_exec pub_mac (vole_key pU pMac d) d threads csz psz seeds pseeds
      (fun k => nth k (ap_words p) 0%N) (fun k => nth k (ap_msgs p) (0, 0)%N) (fun k => nth k (ap_pmsgs p) (0, 0)%N) cv = Some v /\
    look (av_outs v) = true /\
    forall (D : Type) (Deqb : D -> D -> bool) (H : list N -> D), (forall a, Deqb a a = true) ->
      av_outcome Deqb H v (H (ap_hash p)) = (false, false).
(** at most a fraction 4/|deltas| + n mx/|X| + m my/|Y| of the verifier's choices lets any prover be accepted with committed inputs
    outside [R], unless the transcript hash collides (see GameArithSpec and C50 for the quantities); n multiplications, m relations *)
Definition rarely_fooled (c : list agate) (look R : list N -> bool) (n m : nat) : Prop :=
  forall pub_mac pU pMac t csz psz (D : Type) (Deqb : D -> D -> bool) (H : list N -> D) word reply preply digest (X Y deltas : list N) mx my,
  1 <= t <= 5 -> 1 <= csz -> 1 <= psz ->
  spread block_chal mx X -> spread word_chal my Y -> Forall (fun y => (y < 2 ^ 64)%N) Y ->
  NoDup deltas -> Forall (fun d => (d < prm)%N) deltas -> (pub_mac < prm)%N ->
  (forall s r, words_ok (play_words csz psz c word s r) 0 c) ->
  (forall s r k, (snd (reply s r k) < 2 ^ 64)%N /\ (snd (preply s r k) < 2 ^ 64)%N) ->
  (forall a b, Deqb a b = true -> a = b) ->
  let Bm := num_checks csz n in let Br := num_checks psz m in
  let SS := tuples Bm (tuples t X) in let RR := tuples Br Y in
  (exists s r d1 d2 v1 v2, In s SS /\ In r RR /\ In d1 deltas /\ In d2 deltas /\
    agame_exec pub_mac pU pMac t csz psz c word reply preply s r d1 = Some v1 /\
    agame_exec pub_mac pU pMac t csz psz c word reply preply s r d2 = Some v2 /\
    av_hash v1 <> av_hash v2 /\ H (av_hash v1) = H (av_hash v2)) \/
  cnt (fun x => app_fooled pub_mac pU pMac t csz psz c D Deqb H word reply preply digest look R (fst (fst x)) (snd (fst x)) (snd x))
      (list_prod (list_prod SS RR) deltas)
   <= 4 * (length X ^ (t * Bm) * length Y ^ Br) +
      (n * mx * length X ^ (t * Bm - 1) * length Y ^ Br + m * my * length X ^ (t * Bm) * length Y ^ (Br - 1)) * length deltas.
Definition any (_ : list N) : bool := true.
