(** Property C69: the boolean and the arithmetic engine on one channel, all interleavings. *)
From Coq Require Import NArith List Bool Arith Lia.
From Verif Require Import Word FpModel ArithModel ArithSpec ArithThms4 BoolModel BoolSpec BoolThms BoolIOModel BoolIOSpec BoolPolyModel BoolPolySpec BSessModel BSessSpec
  WireModel WireNet WireProofs AWireModel XWireModel XWireThms.
From Verif Require PropBool PropWire PropArith.
Import ListNotations.

(** ** honest parties: whatever the order of the calls, no interleaving of the two programs gets stuck, every run is finite, and every
    complete run returns to both the plain outputs of both engines and the other side's data in order, reports no cheating, and
    leaves both channels empty *)
Theorem C69_honest_session : forall bs br reset NB gs gr r0 r1 pM d threads csz psz ope rseeds G H pub_mac pU pMac ad acsz apsz AG AH coins prog,
  1 <= NB -> length gs = NB -> valid_delta d -> (forall l, length (H l) = 32) -> 1 <= threads <= 32 -> threads <= csz -> 1 <= psz ->
  (forall k, length (ope k) = 128) -> (forall k, (rseeds k < 2 ^ 128)%N) -> wf_prog 0 (bcalls prog) = true -> all_hold (brels (bcalls prog)) = true ->
  count_and (gates_of (bcalls prog)) = 0 \/ threads <= last_batch csz (count_and (gates_of (bcalls prog))) ->
  vole_ok pU pMac -> (pub_mac < prm)%N -> (ad < prm)%N -> (forall k, (coins false k < 2 ^ 128)%N) -> (forall k, (coins true k < 2 ^ 64)%N) ->
  Forall wf_honest (acalls prog) -> pl_ok (aplain (acalls prog)) = true -> (forall l, length (AH l) = 32) -> 1 <= acsz ->
  exists (bound : nat) (p : xprv) (v : xver),
    (p_outs (bp_gates (xp_b p)) = bouts (bcalls prog) /\ v_outs (bv_gates (xv_b v)) = bouts (bcalls prog)) /\
    (ap_outs (xp_a p) = pl_outs (aplain (acalls prog)) /\ av_outs (xv_a v) = pl_outs (aplain (acalls prog)) /\ av_cheat (xv_a v) = false) /\
    (xp_got p = data_to true prog /\ xv_got v = data_to false prog) /\
    forall k n,
      nsteps bs br reset NB k (n_init NB gs gr
        (xprv_prog r0 r1 pM threads csz psz ope G H pub_mac (vole_block pU pMac) acsz apsz AG AH xp_init prog)
        (xver_prog r0 r1 (cot_key pM d) d threads csz psz (fun k => map (ot_key d) (ope k)) rseeds G H pub_mac (vole_key pU pMac ad) ad acsz apsz AG AH coins xv_init prog)) n ->
      k <= bound /\
      ((exists n', nstep bs br reset NB n n') \/
       (n_p n = PDone (Some p) /\ n_v n = PDone (Some (v, false)) /\ n_sr n = [] /\ n_rs n = [])).
Proof. exact xnet_session. Qed.
(** so a complete run exists *)
Theorem C69_session_completes : forall bs br reset NB gs gr r0 r1 pM d threads csz psz ope rseeds G H pub_mac pU pMac ad acsz apsz AG AH coins prog,
  1 <= NB -> length gs = NB -> valid_delta d -> (forall l, length (H l) = 32) -> 1 <= threads <= 32 -> threads <= csz -> 1 <= psz ->
  (forall k, length (ope k) = 128) -> (forall k, (rseeds k < 2 ^ 128)%N) -> wf_prog 0 (bcalls prog) = true -> all_hold (brels (bcalls prog)) = true ->
  count_and (gates_of (bcalls prog)) = 0 \/ threads <= last_batch csz (count_and (gates_of (bcalls prog))) ->
  vole_ok pU pMac -> (pub_mac < prm)%N -> (ad < prm)%N -> (forall k, (coins false k < 2 ^ 128)%N) -> (forall k, (coins true k < 2 ^ 64)%N) ->
  Forall wf_honest (acalls prog) -> pl_ok (aplain (acalls prog)) = true -> (forall l, length (AH l) = 32) -> 1 <= acsz ->
  exists k n p v,
    nsteps bs br reset NB k (n_init NB gs gr
      (xprv_prog r0 r1 pM threads csz psz ope G H pub_mac (vole_block pU pMac) acsz apsz AG AH xp_init prog)
      (xver_prog r0 r1 (cot_key pM d) d threads csz psz (fun k => map (ot_key d) (ope k)) rseeds G H pub_mac (vole_key pU pMac ad) ad acsz apsz AG AH coins xv_init prog)) n /\
    n_p n = PDone (Some p) /\ n_v n = PDone (Some (v, false)) /\ v_outs (bv_gates (xv_b v)) = bouts (bcalls prog) /\ av_outs (xv_a v) = pl_outs (aplain (acalls prog)) /\
    xp_got p = data_to true prog /\ xv_got v = data_to false prog.
Proof.
  intros bs br reset NB gs gr r0 r1 pM d threads csz psz ope rseeds G H pub_mac pU pMac ad acsz apsz AG AH coins prog
    H1 H2 H3 H4 H5 H6 H7 H8 H9 H10 H11 H12 H13 H14 H15 H16 H17 H18 H19 H20 H21.
  destruct (xnet_session bs br reset NB gs gr r0 r1 pM d threads csz psz ope rseeds G H pub_mac pU pMac ad acsz apsz AG AH coins prog
    H1 H2 H3 H4 H5 H6 H7 H8 H9 H10 H11 H12 H13 H14 H15 H16 H17 H18 H19 H20 H21) as (bound & p & v & (_ & O1) & (_ & O2 & _) & (D1 & D2) & A).
  set (m := n_init NB gs gr _ _) in *.
  assert (L : forall j, (exists k n, nsteps bs br reset NB k m n /\ n_p n = PDone (Some p) /\ n_v n = PDone (Some (v, false))) \/
                        exists n, nsteps bs br reset NB j m n).
  { induction j as [|j [IH|[n IH]]]; [right; exists m; constructor|now left|]. destruct (A j n IH) as (_ & [[n' Hs]|(E1 & E2 & _)]).
    - right. exists n'. econstructor; eassumption.
    - left. eauto. }
  destruct (L (S bound)) as [(k & n & R & E1 & E2)|[n R]].
  - exists k, n, p, v. repeat split; assumption.
  - destruct (A _ _ R) as [B _]. clear - B. lia.
Qed.

(** ** concrete cases *)
Definition x_coins (b : bool) (k : nat) : N := (N.of_nat k + if b then 7 else 9)%N.
Definition x_G (s : N) (i : nat) : N := (s + 5 + N.of_nat i)%N.
Definition x_pM (i : nat) : N := (4 * N.of_nat i)%N.
Definition x_U (i : nat) : N := (N.of_nat i + 3)%N.
Definition x_M (i : nat) : N := (2 * N.of_nat i + 1)%N.
Definition x_net (prog : list xop) := n_init 8 (repeat true 8) (repeat false 8)
  (xprv_prog 11 12 x_pM 1 2 1 (fun _ => repeat 0%N 128) PropWire.demo_G PropWire.demo_H 77 (vole_block x_U x_M) 2 2 x_G PropWire.demo_H xp_init prog)
  (xver_prog 11 12 (cot_key x_pM 5) 5 1 2 1 (fun _ => map (ot_key 5) (repeat 0%N 128)) (fun k => N.of_nat k) PropWire.demo_G PropWire.demo_H
     77 (vole_key x_U x_M 6) 6 2 2 x_G PropWire.demo_H x_coins xv_init prog).
(** an input of each kind, data in both directions, a multiplication with a relation, a product of bits, and openings *)
Definition x_prog : list xop :=
  [XB (OGate (GIn true)); XA (AIn 3); XB (OGate (GIn true)); XData true [1; 2; 3]%N; XSync; XA (AMul 0 0); XData false [4; 5]%N;
   XB (OGate (GAnd 0 1)); XA (APoly [0] [0] [prm - 9; 1]%N); XB (OGate (GReveal 2)); XA (AReveal 1)].
Example C69_case :
  wf_prog 0 (bcalls x_prog) = true /\ all_hold (brels (bcalls x_prog)) = true /\ count_and (gates_of (bcalls x_prog)) = 1 /\ last_batch 2 1 = 1 /\
  Forall wf_honest (acalls x_prog) /\ pl_ok (aplain (acalls x_prog)) = true /\
  bouts (bcalls x_prog) = [true] /\ pl_outs (aplain (acalls x_prog)) = [9%N] /\ data_to true x_prog = [[4; 5]%N] /\ data_to false x_prog = [[1; 2; 3]%N].
Proof.
  do 4 (split; [vm_compute; reflexivity|]). split; [repeat (apply Forall_cons; [split; cbn; repeat split; repeat constructor|]); constructor|].
  repeat split; vm_compute; reflexivity.
Qed.
Example C69_run_case :
  let n := PropWire.play 400 true false true 8 (x_net x_prog) in
  match n_p n, n_v n with
  | PDone (Some p), PDone (Some (v, b)) =>
      v_outs (bv_gates (xv_b v)) = [true] /\ av_outs (xv_a v) = [9%N] /\ av_cheat (xv_a v) = false /\ b = false /\
      xp_got p = [[4; 5]%N] /\ xv_got v = [[1; 2; 3]%N] /\ n_sr n = [] /\ n_rs n = []
  | _, _ => False end.
Proof. vm_compute. repeat split. Qed.

(** ** the order of the two finalize calls: the value returned by finalize_zk_bool does not cover an arithmetic relation that is still
    queued; here the relation 1 + x * x = 0 is claimed for x = 3 and the run ends with "no cheating" as its result *)
Definition x_late : list xop := [XA (AIn 3); XA (APoly [0] [0] [1; 1]%N)].
Theorem C69_result_covers_arithmetic_refuted : ~ forall k n v,
  nsteps true false true 8 k (x_net x_late) n -> n_v n = PDone (Some (v, false)) -> av_cheat (xv_a v) = false.
Proof.
  intro X.
  destruct (PropWire.play_steps true false true 8 60 (x_net x_late) 0 (x_net x_late) (NRefl _ _ _ _ _)) as [k Hk].
  set (n := PropWire.play 60 true false true 8 (x_net x_late)) in *.
  assert (E : match n_v n with PDone (Some (v, b)) => b = false /\ av_cheat (xv_a v) = true | _ => False end) by (vm_compute; split; reflexivity).
  destruct (n_v n) eqn:Ev; try (exfalso; exact E). destruct r as [[v b]|]; [|exfalso; exact E]. destruct E as [-> C]. rewrite (X k n v Hk Ev) in C. discriminate C.
Qed.
Example C69_late_case : pl_ok (aplain (acalls x_late)) = false.
Proof. vm_compute. reflexivity. Qed.

Print Assumptions C69_honest_session.
Print Assumptions C69_session_completes.
Print Assumptions C69_result_covers_arithmetic_refuted.
