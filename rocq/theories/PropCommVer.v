(** Property C70, second part: the number of bytes sent by the verifier of a session with both engines, and bounds for unfinished runs. *)
From Coq Require Import NArith List Bool Arith Lia.
From Verif Require Import Word FpModel ArithModel ArithSpec AHideSpec HideSpec BoolModel BoolIOModel BoolPolyModel BSessModel BSessSpec BSessHideSpec WireModel BWireSpec BWireHideSpec AWireModel XWireModel XWireThms
  XWireHideSpec CommSpec CommProofs CommThms CommVerSpec CommVer.
From Verif Require PropWire PropXWire.
Import ListNotations.

(** ** the counter of the verifier: whatever the prover program sends, a verifier that gets to its end has sent [vcomm] bytes *)
Theorem C70_verifier_bytes : forall bs br reset NB gs gr r0 r1 vK delta threads csz psz opek rseeds G H pub_mac vV adelta acsz apsz AG AH coins (RP : Type) (P : proc RP) prog c n v,
  1 <= psz -> 1 <= acsz ->
  vcounted bs br reset NB (n_init NB gs gr P (xver_prog r0 r1 vK delta threads csz psz opek rseeds G H pub_mac vV adelta acsz apsz AG AH coins xv_init prog)) c n ->
  n_v n = PDone (Some v) -> c = vcomm psz acsz apsz 0 0 0 prog.
Proof.
  intros bs br reset NB gs gr r0 r1 vK delta threads csz psz opek rseeds G H pub_mac vV adelta acsz apsz AG AH coins RP P prog c n v Hp Ha C E.
  pose proof (vcomm_cost r0 r1 vK delta threads csz psz opek rseeds G H pub_mac vV adelta acsz apsz AG AH coins Hp Ha prog xv_init) as K.
  destruct (vcost_run bs br reset NB gs gr P _ _ c n K C) as (rest & E2 & Z). rewrite E in Z. cbn [vcosts] in Z. cbn in E2. lia.
Qed.

(** ** a run that is not finished, or that one party has left, has not used more than that in either direction *)
Theorem C70_verifier_at_most : forall bs br reset NB gs gr r0 r1 vK delta threads csz psz opek rseeds G H pub_mac vV adelta acsz apsz AG AH coins (RP : Type) (P : proc RP) prog c n,
  1 <= psz -> 1 <= acsz ->
  vcounted bs br reset NB (n_init NB gs gr P (xver_prog r0 r1 vK delta threads csz psz opek rseeds G H pub_mac vV adelta acsz apsz AG AH coins xv_init prog)) c n ->
  c <= vcomm psz acsz apsz 0 0 0 prog.
Proof.
  intros bs br reset NB gs gr r0 r1 vK delta threads csz psz opek rseeds G H pub_mac vV adelta acsz apsz AG AH coins RP P prog c n Hp Ha C.
  pose proof (vcomm_cost r0 r1 vK delta threads csz psz opek rseeds G H pub_mac vV adelta acsz apsz AG AH coins Hp Ha prog xv_init) as K.
  destruct (vcost_run bs br reset NB gs gr P _ _ c n K C) as (rest & E2 & _). cbn in E2. lia.
Qed.
Theorem C70_prover_at_most : forall bs br reset NB gs gr r0 r1 pM threads csz psz ope G H pub_mac pV acsz apsz AG AH (RV : Type) (V : proc RV) prog c n,
  1 <= NB -> length gs = NB -> (forall l, length (H l) = 32) -> (forall l, length (AH l) = 32) -> 1 <= csz -> 1 <= psz -> 1 <= acsz ->
  counted bs br reset NB (n_init NB gs gr (xprv_prog r0 r1 pM threads csz psz ope G H pub_mac pV acsz apsz AG AH xp_init prog) V) c n ->
  c <= comm NB csz psz acsz apsz 0 0 0 0 0 prog.
Proof.
  intros bs br reset NB gs gr r0 r1 pM threads csz psz ope G H pub_mac pV acsz apsz AG AH RV V prog c n HN Hg HH HA Hc Hp Ha C.
  pose proof (comm_cost r0 r1 pM threads csz psz ope G H pub_mac pV acsz apsz AG AH NB HH HA Hc Hp Ha prog xp_init 0) as K.
  destruct (cost_run bs reset NB HN br gs gr _ V _ c n Hg K C) as (_ & rest & E2 & _). cbn in E2. lia.
Qed.

(** ** AND gates cost the verifier nothing, because the challenge of their check comes from the transcript: adding any boolean gates
    anywhere to a program leaves its count as it is *)
Inductive more_gates : list xop -> list xop -> Prop :=
| MNil : more_gates [] []
| MGate g l l' : more_gates l l' -> more_gates l (XB (OGate g) :: l')
| MSame o l l' : more_gates l l' -> more_gates (o :: l) (o :: l').
Theorem C70_gates_are_free : forall psz acsz apsz l l', more_gates l l' -> vcomm psz acsz apsz 0 0 0 l = vcomm psz acsz apsz 0 0 0 l'.
Proof.
  intros psz acsz apsz l l' M. generalize 0 at 1 4 as q. generalize 0 at 1 3 as m. generalize 0 as p. induction M as [|g l l' M IH|o l l' M IH]; intros p m q.
  - reflexivity.
  - apply IH.
  - destruct o as [[g|c]|g|[] x|]; cbn [vcomm]; [apply IH|destruct (rels psz (nrel c) q); now rewrite IH| |apply IH|now rewrite IH|apply IH].
    destruct g; rewrite ?IH; reflexivity.
Qed.

(** ** the session of [C69_run_case]: two bytes of data, a challenge of 8 bytes and a seed of 16 bytes *)
Lemma vcounted_exists {RP RV} bs br reset NB k (n0 n : @net RP RV) : nsteps bs br reset NB k n0 n -> exists c, vcounted bs br reset NB n0 c n.
Proof.
  induction 1 as [n|k n n1 n2 _ [c IH] St]; [exists 0; constructor|]. destruct St as [P e V r sr rs P' e' o rs' X|P e V r sr rs V' r' o sr' X].
  - exists c. eapply VOther; [exact IH|exact X].
  - exists (c + length o). eapply VSend; [exact IH|exact X].
Qed.
Definition x_run_end := PropWire.play 400 true false true 8 (PropXWire.x_net PropXWire.x_prog).
Example C70_verifier_case :
  (exists c v, vcounted true false true 8 (PropXWire.x_net PropXWire.x_prog) c x_run_end /\ n_v x_run_end = PDone (Some v) /\ c = 26) /\
  more_gates [XA (AIn 3); XA (AMul 0 0)] [XB (OGate (GIn true)); XA (AIn 3); XB (OGate (GAnd 0 0)); XA (AMul 0 0)].
Proof.
  split; [|repeat constructor].
  assert (X : exists v, n_v x_run_end = PDone (Some v)) by (eexists; vm_compute; reflexivity).
  assert (Y : exists k, nsteps true false true 8 k (PropXWire.x_net PropXWire.x_prog) x_run_end).
  { exact (PropWire.play_steps true false true 8 400 (PropXWire.x_net PropXWire.x_prog) 0 (PropXWire.x_net PropXWire.x_prog) (NRefl _ _ _ _ _)). }
  generalize dependent x_run_end. intros n [v Hv] [k Hk]. destruct (vcounted_exists _ _ _ _ _ _ _ Hk) as [c Hc].
  exists c, v. split; [exact Hc|]. split; [exact Hv|].
  unfold PropXWire.x_net in Hc. apply C70_verifier_bytes with (v := v) in Hc; [|clear; lia|clear; lia|exact Hv].
  rewrite Hc. vm_compute. reflexivity.
Qed.

Print Assumptions C70_verifier_bytes.
Print Assumptions C70_verifier_at_most.
Print Assumptions C70_prover_at_most.
Print Assumptions C70_gates_are_free.
