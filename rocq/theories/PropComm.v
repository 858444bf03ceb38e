(** Property C70: the number of bytes sent by the prover of a session with both engines. *)
From Coq Require Import NArith List Bool Arith Lia.
From Verif Require Import Word FpModel ArithModel ArithSpec AHideSpec HideSpec BoolModel BoolIOModel BoolPolyModel BSessModel BSessSpec BSessHideSpec WireModel BWireSpec BWireHideSpec AWireModel XWireModel XWireThms
  XWireHideSpec CommSpec CommProofs CommThms.
From Verif Require PropWire PropXWire PropXWireHide.
Import ListNotations.

(** ** the counter of the prover: whatever the verifier program, the inputs, the correlations, the challenges and the interleaving, a prover
    that gets to its end has sent [comm] bytes, which is computed from the shape of the program alone *)
Theorem C70_bytes_sent : forall bs br reset NB gs gr r0 r1 pM threads csz psz ope G H pub_mac pV acsz apsz AG AH (RV : Type) (V : proc RV) prog c n p,
  1 <= NB -> length gs = NB -> (forall l, length (H l) = 32) -> (forall l, length (AH l) = 32) -> 1 <= csz -> 1 <= psz -> 1 <= acsz ->
  counted bs br reset NB (n_init NB gs gr (xprv_prog r0 r1 pM threads csz psz ope G H pub_mac pV acsz apsz AG AH xp_init prog) V) c n ->
  n_p n = PDone (Some p) -> c = comm NB csz psz acsz apsz 0 0 0 0 0 prog.
Proof.
  intros bs br reset NB gs gr r0 r1 pM threads csz psz ope G H pub_mac pV acsz apsz AG AH RV V prog c n p HN Hg HH HA Hc Hp Ha C E.
  pose proof (comm_cost r0 r1 pM threads csz psz ope G H pub_mac pV acsz apsz AG AH NB HH HA Hc Hp Ha prog xp_init 0) as K.
  destruct (cost_run bs reset NB HN br gs gr _ V _ c n Hg K C) as (_ & rest & E2 & Z). rewrite E in Z. cbn [costs] in Z. cbn in E2. lia.
Qed.

(** ** so the count does not depend on the private inputs *)
Lemma comm_xwith NB csz psz acsz apsz prog : forall insb insa bits g q m p,
  comm NB csz psz acsz apsz bits g q m p (xwith (bwith_inputs insb (bcalls prog)) (awith_inputs insa (acalls prog)) prog) = comm NB csz psz acsz apsz bits g q m p prog.
Proof.
  induction prog as [|o prog IH]; intros insb insa bits g q m p; [reflexivity|].
  destruct o as [[[x|x|i j|i|i j|i]|c]|[x|x|i j|i x|i j|i j|i x|i|i x|i|xs ys co|xs ys x]|[] x|];
    cbn [bcalls acalls bwith_inputs awith_inputs]; try (destruct insb); try (destruct insa); cbn [xwith comm]; rewrite ?IH; try reflexivity.
  all: destruct (rels psz (nrel c) q); now rewrite IH.
Qed.
Theorem C70_same_for_all_witnesses : forall bs br reset NB gs gr r0 r1 pM threads csz psz ope G H pub_mac pV acsz apsz AG AH (RV : Type) (V : proc RV)
    bs' br' reset' gs' gr' r0' r1' pM' threads' ope' G' H' pub_mac' pV' AG' AH' (RV' : Type) (V' : proc RV') prog ins ins' c n p c' n' p',
  1 <= NB -> length gs = NB -> length gs' = NB -> (forall l, length (H l) = 32) -> (forall l, length (AH l) = 32) -> (forall l, length (H' l) = 32) -> (forall l, length (AH' l) = 32) ->
  1 <= csz -> 1 <= psz -> 1 <= acsz ->
  counted bs br reset NB (n_init NB gs gr (xprv_prog r0 r1 pM threads csz psz ope G H pub_mac pV acsz apsz AG AH xp_init (xwith_inputs ins prog)) V) c n -> n_p n = PDone (Some p) ->
  counted bs' br' reset' NB (n_init NB gs' gr' (xprv_prog r0' r1' pM' threads' csz psz ope' G' H' pub_mac' pV' acsz apsz AG' AH' xp_init (xwith_inputs ins' prog)) V') c' n' -> n_p n' = PDone (Some p') ->
  c = c'.
Proof.
  intros bs br reset NB gs gr r0 r1 pM threads csz psz ope G H pub_mac pV acsz apsz AG AH RV V bs' br' reset' gs' gr' r0' r1' pM' threads' ope' G' H' pub_mac' pV' AG' AH' RV' V'
    prog ins ins' c n p c' n' p' HN Hg Hg' HH HA HH' HA' Hc Hp Ha C E C' E'.
  rewrite (C70_bytes_sent bs br reset NB gs gr r0 r1 pM threads csz psz ope G H pub_mac pV acsz apsz AG AH RV V _ c n p HN Hg HH HA Hc Hp Ha C E).
  rewrite (C70_bytes_sent bs' br' reset' NB gs' gr' r0' r1' pM' threads' csz psz ope' G' H' pub_mac' pV' acsz apsz AG' AH' RV' V' _ c' n' p' HN Hg' HH' HA' Hc Hp Ha C' E').
  unfold xwith_inputs. now rewrite !comm_xwith.
Qed.

(** ** the order of the calls matters: n inputs of a bit and a field element cost n padded buffers if they alternate, but at most n / NB + 1
    buffers if the bits come first.  The reason is that BoolIO sends its whole buffer before every data message *)
Definition alternating (n : nat) : list xop := concat (repeat [XB (OGate (GIn true)); XA (AIn 1)] n).
Definition grouped (n : nat) : list xop := repeat (XB (OGate (GIn true))) n ++ repeat (XA (AIn 1)) n.
Lemma comm_words NB csz psz acsz apsz n : forall bits, comm NB csz psz acsz apsz bits 0 0 0 0 (repeat (XA (AIn 1)) n) = fl NB bits + 8 * n + 64.
Proof. induction n as [|n IH]; intro bits; cbn [repeat comm some Nat.eqb]; [lia|]. rewrite IH. unfold fl at 2. cbn [Nat.eqb]. lia. Qed.
Lemma comm_bits NB csz psz acsz apsz rest n : 1 <= NB -> forall bits, bits < NB ->
  comm NB csz psz acsz apsz bits 0 0 0 0 (repeat (XB (OGate (GIn true))) n ++ rest) =
  (bits + n) / NB * block_bytes NB + comm NB csz psz acsz apsz ((bits + n) mod NB) 0 0 0 0 rest.
Proof.
  intro HN. induction n as [|n IH]; intros bits Hb; cbn [repeat app comm].
  - rewrite Nat.add_0_r, Nat.div_small, Nat.mod_small by lia. reflexivity.
  - unfold bit_bytes, bit_next. destruct (Nat.eqb_spec (S bits) NB) as [X|X].
    + rewrite IH by lia. replace (bits + S n) with (n + 1 * NB) by lia. rewrite Nat.div_add, Nat.mod_add by lia. cbn [Nat.add]. lia.
    + rewrite IH by lia. replace (bits + S n) with (S bits + n) by lia. reflexivity.
Qed.
Theorem C70_order_of_calls : forall NB csz psz acsz apsz n, 1 <= NB ->
  comm NB csz psz acsz apsz 0 0 0 0 0 (alternating n) = n * (block_bytes NB + 8) + 64 /\
  comm NB csz psz acsz apsz 0 0 0 0 0 (grouped n) <= (n / NB + 1) * block_bytes NB + 8 * n + 64.
Proof.
  intros NB csz psz acsz apsz n HN. split.
  - unfold alternating. induction n as [|n IH]; [reflexivity|]. cbn [repeat concat app comm]. rewrite IH.
    unfold bit_bytes, bit_next. destruct (Nat.eqb_spec 1 NB) as [X|X]; unfold fl; cbn [Nat.eqb]; lia.
  - unfold grouped. rewrite comm_bits by lia. rewrite comm_words. cbn [Nat.add].
    assert (L : forall b, fl NB b <= block_bytes NB) by (intro b; unfold fl; destruct (Nat.eqb b 0); lia).
    specialize (L (n mod NB)). lia.
Qed.

(** ** the session of [C69_hiding_case]: the verifier program reads 199 bytes, which is all the prover sends *)
Lemma counted_exists {RP RV} bs br reset NB k (n0 n : @net RP RV) : nsteps bs br reset NB k n0 n -> exists c, counted bs br reset NB n0 c n.
Proof.
  induction 1 as [n|k n n1 n2 _ [c IH] St]; [exists 0; constructor|]. destruct St as [P e V r sr rs P' e' o rs' X|P e V r sr rs V' r' o sr' X].
  - exists (c + length o). eapply CSend; [exact IH|exact X].
  - exists c. eapply COther; [exact IH|exact X].
Qed.
Example C70_case :
  (exists c p, counted true false true 8 PropXWireHide.x_hide_start c PropXWireHide.x_hide_end /\ n_p PropXWireHide.x_hide_end = PDone (Some p) /\ c = 199) /\
  comm 8 2 1 2 2 0 0 0 0 0 PropXWireHide.x_hide = 199 /\
  comm 64 2 1 2 2 0 0 0 0 0 (alternating 10) = 224 /\ comm 64 2 1 2 2 0 0 0 0 0 (grouped 10) = 152.
Proof.
  split; [|repeat split; vm_compute; reflexivity].
  assert (X : exists p, n_p PropXWireHide.x_hide_end = PDone (Some p)) by (eexists; vm_compute; reflexivity).
  assert (Y : exists k, nsteps true false true 8 k PropXWireHide.x_hide_start PropXWireHide.x_hide_end).
  { exact (PropWire.play_steps true false true 8 400 PropXWireHide.x_hide_start 0 PropXWireHide.x_hide_start (NRefl _ _ _ _ _)). }
  generalize dependent PropXWireHide.x_hide_end. intros n [p Hp] [k Hk]. destruct (counted_exists _ _ _ _ _ _ _ Hk) as [c Hc].
  exists c, p. split; [exact Hc|]. split; [exact Hp|].
  unfold PropXWireHide.x_hide_start in Hc. apply C70_bytes_sent with (p := p) in Hc; [|clear; lia|reflexivity|intro l; apply (WireProofs.enc2_len)|intro l; apply (WireProofs.enc2_len)|clear; lia|clear; lia|clear; lia|exact Hp].
  rewrite Hc. vm_compute. reflexivity.
Qed.

Print Assumptions C70_bytes_sent.
Print Assumptions C70_same_for_all_witnesses.
Print Assumptions C70_order_of_calls.
