(** The prover of both engines over one channel against a verifier program that sends a batch challenge that is not reduced. *)
From Coq Require Import NArith List Bool Arith Lia.
From Verif Require Import Word WordProofs FpModel FpProofs ArithModel ArithSpec AHideSpec BoolModel BoolSpec BoolIOModel BoolIOSpec BoolPolyModel BSessModel BSessSpec HideSpec BSessHideSpec
  WireModel WireProofs WireNet BWireModel AWireModel AWireProofs AWireLeak XWireModel XWireThms XWireHideSpec.
Import ListNotations.
Local Open Scope N_scope.
Ltac Zify.zify_post_hook ::= idtac.

(** a private bit, and x * y = 0 for private x and y *)
Definition x_leak : list xop := [XB (OGate (GIn false)); XA (AIn 0); XA (AIn 0); XA (APoly [0%nat] [1%nat] [0; 1])].
(** the verifier's program: it keeps the second correction word, sends the challenge 7 * 2^61, and decides by the size of
    the second word of the answer.  Nothing is decided unless its own key of y is at least 4p/7 *)
Definition x_spy (k2 d : N) : proc (option bool) :=
  PGetBit (fun _ => PAlign true (PGet 8 (fun _ => PAlign true (PGet 8 (fun w => PAlign true (PGet 32 (fun _ => PFlush
    (PAlign false (PPut (enc64 (7 * 2 ^ 61)) (PAlign true (PGet 16 (fun b => PAlign true (PGet 32 (fun _ => PFlush
      (PDone (if 4 * prm <=? 7 * ((k2 + dec_bytes w * d) mod prm) then Some (prm <=? snd (dec_pair b)) else None)))))))))))))))).

Section Run.
  Variables (bs br reset : bool) (NB : nat) (gs gr : list bool) (r0 r1 : N) (pM : nat -> N) (ope : nat -> list N) (threads csz psz : nat).
  Variables (G : list N -> nat -> N) (H : list N -> list N) (pub_mac : N) (key : nat -> N) (d : N) (acsz apsz : nat) (AG : N -> nat -> N) (AH : list N -> list N).
  Variables (u0 u1 u2 : N).
  Hypothesis (HNB : (1 <= NB)%nat) (Hgs : length gs = NB) (HH : forall l, length (H l) = 32%nat) (HAH : forall l, length (AH l) = 32%nat).
  Hypothesis (Hu0 : u0 < PR) (Hu1 : u1 < PR) (Hu2 : u2 < PR).
  Notation us := [u0; u1; u2].
  Notation pV := (vole_block (val_of us) (mac_of key d us)).
  Notation P b x := (xprv_prog r0 r1 pM threads csz psz ope G H pub_mac pV acsz apsz AG AH xp_init (xwith_inputs ([b], [x; 0]) x_leak)).
  Notation K2 := ((key 2%nat + u1 * d) mod prm).
  Notation smid := (s_mid key d u0 u1 u2).
  Notation sfin := (s_fin key d u0 u1 u2).

  Definition first_word x : N := snd (a_prv_input (pV 1%nat) x).
  Definition second_word : N := snd (a_prv_input (pV 2%nat) 0).
  Lemma prog_eq b x : exists c s, P b x = PBit c (PAlign true (PPut (enc64 (first_word x)) (PAlign true (PPut (enc64 second_word)
    (PAlign true (PPut (H []) (xp_batch pV (smid x) (fun a => PAlign true (PPut (AH (ap_hash a)) (PFlush (PDone (Some {| xp_b := s; xp_a := a; xp_got := [] |})))))))))))).
  Proof. do 2 eexists. destruct apsz; reflexivity. Qed.

  Definition answer x : option bool := if 4 * prm <=? 7 * K2 then Some (x =? 1) else None.
  Definition sched c x : list op :=
    [OBit c; OData true (enc64 (first_word x)); OData true (enc64 second_word); OData true (H []); OFlush; OData false (enc64 (7 * 2 ^ 61));
     OData true (enc_pair (last (ap_pmsgs (sfin x)) (0, 0))); OData true (AH (ap_hash (sfin x)))].
  Lemma follow_prover b x : exists c s, forall dg, follow true (P b x) (compile (sched c x ++ [OFlush])) dg (Some s).
  Proof.
    destruct (prog_eq b x) as (c & s & E). exists c, {| xp_b := s; xp_a := sfin x; xp_got := [] |}. intro dg. rewrite E. unfold xp_batch, sched.
    cbn [compile flat_map compile1 app follow Bool.eqb].
    do 7 (eexists; split; [reflexivity|]). eexists. split; [reflexivity|]. eexists. split; [reflexivity|].
    eexists. split; [rewrite enc64_len; reflexivity|]. cbv beta zeta. rewrite (dec_enc64 (7 * 2 ^ 61)) by reflexivity. fold (sfin x).
    do 5 (eexists; split; [reflexivity|]). reflexivity.
  Qed.
  Lemma follow_spy c x dg : x <= 1 -> follow false (x_spy (key 2%nat) d) (compile (sched c x ++ [OFlush])) dg (answer x).
  Proof.
    intro Hx. unfold x_spy, sched. cbn [compile flat_map compile1 app follow Bool.eqb].
    eexists. split; [reflexivity|]. eexists. split; [reflexivity|]. eexists. split; [rewrite enc64_len; reflexivity|].
    eexists. split; [reflexivity|]. eexists. split; [rewrite enc64_len; reflexivity|].
    eexists. split; [reflexivity|]. eexists. split; [rewrite HH; reflexivity|]. eexists. split; [reflexivity|].
    eexists. split; [reflexivity|]. eexists. split; [reflexivity|]. eexists. split; [reflexivity|].
    eexists. split; [rewrite enc_pair_len; reflexivity|]. eexists. split; [reflexivity|]. eexists. split; [rewrite HAH; reflexivity|].
    eexists. split; [reflexivity|]. cbv beta. f_equal.
    destruct (pair_64 key d u0 u1 u2 x) as [L1 L2]. rewrite dec_enc_pair by assumption. rewrite (word_eq true (fun _ _ => 0) key d 1 1 (fun _ _ => 0) u0 u1 u2 (le_n 1) Hu0 Hu1 Hu2 x Hx).
    unfold second_word. rewrite (leak_second true (fun _ _ => 0) key d 1 1 (fun _ _ => 0) u0 u1 u2 (le_n 1) Hu0 Hu1 Hu2), dec_enc64 by (unfold PR in *; lia). unfold answer.
    destruct (N.leb_spec (4 * prm) (7 * K2)) as [X|X]; [|reflexivity]. f_equal.
    assert (HK : K2 < PR) by (apply N.mod_lt; discriminate). generalize dependent K2. intros K2 X HK.
    assert (Hx' : x = 0 \/ x = 1) by (clear - Hx; lia). destruct Hx' as [-> | ->].
    - rewrite N.mul_0_l. change (0 =? 1) with false. apply N.leb_gt. apply leak_small; [reflexivity|exact Hu2].
    - rewrite N.mul_1_l. change (1 =? 1) with true. apply N.leb_le. now apply leak_large.
  Qed.
  Lemma x_leak_all b x : x <= 1 -> exists bound, forall k n, nsteps bs br reset NB k (n_init NB gs gr (P b x) (x_spy (key 2%nat) d)) n ->
    (k <= bound)%nat /\ ((exists n', nstep bs br reset NB n n') \/ n_v n = PDone (answer x)).
  Proof.
    intro Hx. destruct (follow_prover b x) as (c & s & F). exists (2 * length (compile (sched c x ++ [OFlush])))%nat. intros k n Hn.
    assert (Hos : no_bare_hash (sched c x)) by (repeat constructor).
    destruct (net_run bs br reset NB HNB gs gr (sched c x) Hgs Hos _ _ _ _ (F _) (follow_spy c x _ Hx) k n Hn) as [A [B|(_ & B & _)]]; auto.
  Qed.
End Run.
