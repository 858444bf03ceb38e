(** Property C69: what the verifier of a session with both engines on one channel tells the prover. *)
From Coq Require Import NArith List Bool Arith Lia.
From Verif Require Import Word FpModel ArithModel ArithSpec BoolModel BoolSpec BoolIOModel BoolPolyModel BoolPolySpec BSessModel WireModel WireNet BWireAny AWireModel XWireModel XWireKey.
From Verif Require PropWire PropXWire.
Import ListNotations.

(** ** what a prover program sees does not depend on the keys or correlations of either engine, except that the verifier may stop: from
    any run, the same number of steps with other keys leads to the same bytes in both directions and the same endpoints, or that
    verifier has stopped earlier and everything was the same up to there *)
Theorem C69_key_only_decides_stop :
  forall bs br reset NB gs gr r0 r1 vK vK' d d' threads csz psz opek opek' rseeds G H pub_mac pub_mac' vV vV' ad ad' acsz apsz AG AH coins
    (RP : Type) (P : proc RP) prog k n,
  1 <= csz -> 1 <= acsz ->
  let V := xver_prog r0 r1 vK d threads csz psz opek rseeds G H pub_mac vV ad acsz apsz AG AH coins xv_init prog in
  let V' := xver_prog r0 r1 vK' d' threads csz psz opek' rseeds G H pub_mac' vV' ad' acsz apsz AG AH coins xv_init prog in
  nsteps bs br reset NB k (n_init NB gs gr P V) n ->
  exists j n1 n1', j <= k /\ nsteps bs br reset NB j (n_init NB gs gr P V) n1 /\ nsteps bs br reset NB j (n_init NB gs gr P V') n1' /\
    n_p n1' = n_p n1 /\ n_s n1' = n_s n1 /\ n_r n1' = n_r n1 /\ n_sr n1' = n_sr n1 /\ n_rs n1' = n_rs n1 /\
    ((j = k /\ n1 = n) \/ n_v n1' = PDone None).
Proof.
  intros bs br reset NB gs gr r0 r1 vK vK' d d' threads csz psz opek opek' rseeds G H pub_mac pub_mac' vV vV' ad ad' acsz apsz AG AH coins RP P prog k n Hc Hac V V' Hn.
  assert (T : stwin V V').
  { apply xver_stwin; [exact Hc|exact Hac|]. split; [split; [reflexivity|split; reflexivity]|split; [split; reflexivity|split; reflexivity]]. }
  destruct (stwin_run bs br reset NB gs gr P V V' k n T Hn) as (j & n1 & n1' & L & A & B & (E1 & E2 & E3 & E4 & E5) & X).
  exists j, n1, n1'. repeat (split; [assumption|]). destruct X as [(-> & -> & _)|X]; auto.
Qed.

(** ** the boolean engine never stops: with the same arithmetic engine, every run is step for step and byte for byte in both directions a
    run with any other key and correlations of the boolean engine, and it ends if and only if that one ends *)
Theorem C69_boolean_key_never_shows :
  forall bs br reset NB gs gr r0 r1 vK vK' d d' threads csz psz opek opek' rseeds G H pub_mac vV ad acsz apsz AG AH coins
    (RP : Type) (P : proc RP) prog k n,
  1 <= csz ->
  nsteps bs br reset NB k (n_init NB gs gr P (xver_prog r0 r1 vK d threads csz psz opek rseeds G H pub_mac vV ad acsz apsz AG AH coins xv_init prog)) n ->
  exists n', nsteps bs br reset NB k (n_init NB gs gr P (xver_prog r0 r1 vK' d' threads csz psz opek' rseeds G H pub_mac vV ad acsz apsz AG AH coins xv_init prog)) n' /\
    n_p n' = n_p n /\ n_s n' = n_s n /\ n_r n' = n_r n /\ n_sr n' = n_sr n /\ n_rs n' = n_rs n /\
    ((exists r, n_v n = PDone r) <-> exists r, n_v n' = PDone r).
Proof.
  intros bs br reset NB gs gr r0 r1 vK vK' d d' threads csz psz opek opek' rseeds G H pub_mac vV ad acsz apsz AG AH coins RP P prog k n Hc Hn.
  destruct (btwin_run bs br reset NB gs gr P _ _ k n
    (xver_btwin r0 r1 threads csz psz rseeds G H acsz apsz AG AH coins vK vK' d d' opek opek' pub_mac vV ad Hc prog xv_init xv_init (conj eq_refl (conj eq_refl eq_refl)) eq_refl) Hn)
    as (n' & B & E1 & E2 & E3 & E4 & E5 & T).
  exists n'. repeat (split; [assumption|]). split; intros [r Er]; rewrite Er in T; inversion T; eauto.
Qed.

(** ** concrete case: the stop itself is visible.  The prover answers the first product check with a reply that only key 6 accepts; with
    key 6 it receives the challenge of the second check, with key 7 it never does *)
Definition x_probe : proc bool :=
  PAlign true (PPut (enc64 0) (PPut (enc64 0) (PFlush (PGet 16 (fun _ => PPut (enc_pair (4045, 0)%N) (PPut (enc64 0) (PPut (PropWire.demo_H [])
    (PFlush (PGet 16 (fun _ => PDone true)))))))))).
Definition x_probed (ad : N) := PropWire.play 200 true false true 8 (n_init 8 (repeat true 8) (repeat false 8) x_probe
  (xver_prog 11 12 (cot_key PropXWire.x_pM 5) 5 1 2 1 (fun _ => map (ot_key 5) (repeat 0%N 128)) (fun k => N.of_nat k) PropWire.demo_G PropWire.demo_H
     77 (vole_key PropXWire.x_U PropXWire.x_M ad) ad 1 2 PropXWire.x_G PropWire.demo_H PropXWire.x_coins xv_init [XA (AIn 0); XA (AMul 0 0); XA (AMul 0 0)])).
Example C69_probe_case :
  n_p (x_probed 6) = PDone true /\ (forall ad, In ad [5; 7; 8]%N -> n_v (x_probed ad) = PDone None /\ n_p (x_probed ad) <> PDone true).
Proof.
  split; [vm_compute; reflexivity|]. intros ad [<-|[<-|[<-|[]]]]; vm_compute; split; (reflexivity || discriminate).
Qed.

Print Assumptions C69_key_only_decides_stop.
Print Assumptions C69_boolean_key_never_shows.
