(** Counting executions of the arithmetic engine: the verifier draws its key, one seed block per worker for every check of
    multiplications (ostriple.h:344-354) and one seed word for every check of relations (polynomial.h:62-66). *)
From Coq Require Import NArith List Bool Arith.
From Verif Require Import ArithModel ArithSpec AHideSpec BoolSpec GameSpec.
Import ListNotations.

(** for every word the prover sends, in order: the number of multiplication checks, and of relation checks, already run *)
Fixpoint aseen (csz psz a r : nat) (c : list agate) : list (nat * nat) :=
  match c with
  | [] => []
  | (AIn _ | AReveal _ | ACheck _ _) :: c' => (checks_done csz a, checks_done psz r) :: aseen csz psz a r c'
  | AMul _ _ :: c' => (checks_done csz (S a), checks_done psz r) :: aseen csz psz (S a) r c'
  | (APoly _ _ _ | AInner _ _ _) :: c' => aseen csz psz a (S r) c'
  | _ :: c' => aseen csz psz a r c'
  end.
(** the words a strategy sends: word i uses the challenges seen so far *)
Definition play_words (csz psz : nat) (c : list agate) (word : list (list N) -> list N -> nat -> N)
    (s : list (list N)) (r : list N) (i : nat) : N :=
  let k := nth i (aseen csz psz 0 0 c) (0, 0) in word (firstn (fst k) s) (firstn (snd k) r) i.
(** every batch of multiplications is covered by the workers' ranges *)
Definition a_cov (t n : nat) : Prop := n < 32 \/ n mod t < n / t.
Definition a_all_covered (t csz n : nat) : Prop := (csz < n -> a_cov t csz) /\ (0 < n -> a_cov t (last_batch csz n)).
(** every residue modulo p is the challenge of at most m of the values drawn *)
Definition spread (chal : N -> N) (m : nat) (l : list N) : Prop := forall r, cnt (fun x => N.eqb (chal x) r) l <= m.
Definition block_chal (x : N) : N := ((x mod 2 ^ 64) mod prm)%N.
Definition word_chal (x : N) : N := (x mod prm)%N.

Section ArithGame.
  Variables (pub_mac : N) (pU pMac : nat -> N) (t csz psz : nat) (c : list agate).
  Variables (D : Type) (Deqb : D -> D -> bool) (H : list N -> D).
  Variables (word : list (list N) -> list N -> nat -> N).
  Variables (reply preply : list (list N) -> list N -> nat -> N * N) (digest : list (list N) -> list N -> D).
  Definition agame_exec (s : list (list N)) (r : list N) (d : N) : option avst :=
    av_exec pub_mac (vole_key pU pMac d) d t csz psz (seeds_of s) (fun k => nth k r 0%N) (play_words csz psz c word s r)
      (reply s r) (preply s r) c.
  Definition acommitted (s : list (list N)) (r : list N) : list N := ac_ins (acommit pU csz psz (play_words csz psz c word s r) c).
  (** accepted, and some revealed value is wrong or some tested relation is false, on the committed inputs *)
  Definition acheats (s : list (list N)) (r : list N) (d : N) : bool :=
    match agame_exec s r d with
    | Some v =>
        let q := aplain (awith_inputs (acommitted s r) c) in
        let '(e, ch) := av_outcome Deqb H v (digest s r) in
        negb e && negb ch &&
        negb ((if list_eq_dec N.eq_dec (map (fun w => w mod prm)%N (av_outs v)) (pl_outs q) then true else false) && pl_ok q)
    | None => false
    end.
End ArithGame.
