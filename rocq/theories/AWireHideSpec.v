(** Hiding over the channel for the arithmetic engine: what a verifier program sees of a run. *)
From Coq Require Import NArith List Bool Arith.
From Verif Require Import Word FpModel ArithModel ArithSpec HideSpec AHideSpec WireModel AWireModel BWireHideSpec.
Import ListNotations.

(** what the prover reads in a step: the bytes that leave its queue *)
Definition prover_reads {RP RV} (n n' : @anet RP RV) : list (site * list N) :=
  match m_p n with
  | QGet t len _ => if Nat.ltb (length (m_vp n')) (length (m_vp n)) then [(t, firstn len (m_vp n))] else []
  | _ => []
  end.
(** [k] steps, with the list of what the prover has read *)
Inductive lsteps (auto : bool) (coins : bool -> nat -> N) {RP RV : Type} : nat -> list (site * list N) -> @anet RP RV -> @anet RP RV -> Prop :=
| LRefl n : lsteps auto coins 0 [] n n
| LTrans k l n n' n'' : lsteps auto coins k l n n' -> mstep auto coins n' n'' -> lsteps auto coins (S k) (l ++ prover_reads n' n'') n n''.
(** Everything outside the prover's program: what it has read, its send buffer, the verifier's program and send buffer, the bytes in flight
    in both directions, what the verifier has read, and the coins drawn.  This contains the verifier's view. *)
Record situation (RV : Type) := { t_log : list (site * list N); t_ps : list N; t_v : aproc RV; t_vs : list N; t_pv : list N; t_vp : list N;
                                  t_reads : list (site * list N); t_c0 : nat; t_c1 : nat }.
Arguments t_log {RV}. Arguments t_v {RV}.
Definition situation_of {RP RV} (l : list (site * list N)) (n : @anet RP RV) : situation RV :=
  {| t_log := l; t_ps := m_ps n; t_v := m_v n; t_vs := m_vs n; t_pv := m_pv n; t_vp := m_vp n; t_reads := m_reads n; t_c0 := m_c0 n; t_c1 := m_c1 n |}.
(** The random field elements with which the honest prover on inputs [ins], against the verifier program [V], can be in the situation [t]
    after [k] steps *)
Definition areaching (auto : bool) (coins : bool -> nat -> N) (pub_mac : N) (key : nat -> N) (d : N) (threads csz psz : nat)
    (G : N -> nat -> N) (H : list N -> list N) {RV : Type} (V : aproc RV) (c : list agate) (k : nat) (t : situation RV) (ins u : list N) : Prop :=
  fvec (aentropy csz psz c) u /\
  exists l n, lsteps auto coins k l
      (m_init (ap_prog pub_mac (vole_block (val_of u) (mac_of key d u)) threads csz psz G H ap_init (awith_inputs ins c)) V) n /\
    situation_of l n = t.
(** the batch challenges of the relation proofs are reduced *)
Definition reduced (l : list (site * list N)) : Prop := Forall (fun r => fst r = AtPSeed -> (dec_bytes (snd r) < prm)%N) l.
