(** Property C69: sessions with both engines on one channel against any verifier program: the witness stays hidden as long as the batch
    challenges of the arithmetic relation proofs are reduced. *)
From Coq Require Import NArith List Bool Arith Lia.
From Verif Require Import Word FpModel ArithModel ArithSpec HideSpec AHideSpec BoolModel BoolSpec BoolIOModel BoolIOSpec BoolPolyModel BoolPolySpec BSessModel BSessSpec BSessHideSpec
  WireModel WireNet WireAny AWireModel BWireSpec BWireHideSpec XWireModel XWireThms XWireHideSpec XWireHide3.
From Verif Require PropWire PropXWire.
Import ListNotations.

(** ** hiding: fix the verifier's half of the correlations and any verifier program [V], and take two witnesses ([fst]: bits, [snd]: field
    elements) with the same outputs in both engines for which all relations hold.  Then every situation [t] of the channel, of both
    endpoints and of the verifier's program, after any number of steps, in which the batch challenges of the arithmetic relation proofs are
    reduced, is reached by equally many choices of the prover's randomness with either witness: the choices are paired off one to one.
    The other challenges and the data blocks sent to the prover are any bytes [V] made up *)
Theorem C69_hiding : forall bs br reset NB gs gr r0 r1 key rkey d threads csz psz G H pub_mac akey ad acsz apsz AG AH (RV : Type) (V : proc RV) prog k t ins ins' outs,
  valid_keys key -> valid_rkeys rkey -> valid_delta d -> (forall l, length (H l) = 32) -> 1 <= psz -> wf_prog 0 (bcalls prog) = true ->
  session_ok threads csz (gates_of (bcalls prog)) -> canon pub_mac -> akeys_ok akey ad -> asession_ok threads acsz apsz (acalls prog) ->
  let eF := fst (fst (fst (fst t))) in
  Forall (Forall (fun b => (b < 256)%N)) (read_data (e_reads eF)) -> Forall (fun x => (dec_bytes x < prm)%N) (u_of psz acsz apsz prog eF UPoly) ->
  bouts (bwith_inputs (fst ins) (bcalls prog)) = bouts (bwith_inputs (fst ins') (bcalls prog)) ->
  all_hold (brels (bwith_inputs (fst ins) (bcalls prog))) = true -> all_hold (brels (bwith_inputs (fst ins') (bcalls prog))) = true ->
  witness (acalls prog) (snd ins) outs -> witness (acalls prog) (snd ins') outs ->
  let R := xreaching bs br reset NB gs gr r0 r1 key rkey d threads csz psz G H pub_mac akey ad acsz apsz AG AH V prog k t in
  exists E, one_to_one (R ins) (R ins') E.
Proof.
  intros bs br reset NB gs gr r0 r1 key rkey d threads csz psz G H pub_mac akey ad acsz apsz AG AH RV V prog k t ins ins' outs
    Hk Hr Hd HH Hp Wf Hok Hpm Hkd Haok eF HB HR Ho Ha Ha' W W'.
  exact (xreach_one_to_one bs br reset NB gs gr r0 r1 key rkey d threads csz psz G H pub_mac akey ad acsz apsz AG AH RV V prog k t
    Hk Hr Hd HH Hp Wf Hok Hpm Hkd Haok HB HR ins ins' outs Ho Ha Ha' W W').
Qed.

(** ** a session with gates and relations of both engines and data in both directions, against a program that sends its data and all its
    challenges at the start and then reads everything that arrives, meets the hypotheses *)
Definition x_hide : list xop :=
  [XB (OGate (GIn true)); XA (AIn 3); XA (AIn 4); XB (OGate (GIn true)); XData true [1; 2; 3]%N; XB (OGate (GIn false)); XB (OGate (GAnd 0 1)); XA (AMul 0 1);
   XData false [4; 5]%N; XB (OPoly (BInn [0; 3] [2; 3] false)); XA (APoly [0] [1] [prm - 12; 1]%N); XB (OGate (GReveal 3)); XA (AReveal 2)].
Definition x_early (len : nat) : proc (list N) := PPut ([7; 8] ++ enc_block 3 ++ enc64 9 ++ enc_block 77)%N (PFlush (PGet len (fun x => PDone x))).
Definition x_w1 : list bool * list N := ([false; true; false], [3; 4]%N).
Definition x_w2 : list bool * list N := ([true; false; false], [2; 6]%N).
Definition x_key (i : nat) : N := (2 * N.of_nat i)%N.
Definition x_akey (i : nat) : N := N.of_nat (i mod 8).
Definition x_hide_start := n_init 8 (repeat true 8) (repeat false 8)
  (xprv_prog 11 12 (mac x_key 5 (repeat false 132)) 1 2 1 (omac (fun _ _ => 0%N) 5 (repeat false 128)) PropWire.demo_G PropWire.demo_H
     77 (vole_block (val_of (repeat 0%N 5)) (mac_of x_akey 6 (repeat 0%N 5))) 2 2 PropXWire.x_G PropWire.demo_H xp_init (xwith_inputs x_w1 x_hide)) (x_early 199).
Definition x_hide_end := PropWire.play 400 true false true 8 x_hide_start.
Example C69_hiding_case :
  (valid_keys x_key /\ valid_delta 5 /\ akeys_ok x_akey 6 /\ canon 77) /\
  (wf_prog 0 (bcalls x_hide) = true /\ session_ok 1 2 (gates_of (bcalls x_hide)) /\ asession_ok 1 2 2 (acalls x_hide)) /\
  (bouts (bwith_inputs (fst x_w1) (bcalls x_hide)) = [false] /\ bouts (bwith_inputs (fst x_w2) (bcalls x_hide)) = [false] /\
   all_hold (brels (bwith_inputs (fst x_w1) (bcalls x_hide))) = true /\ all_hold (brels (bwith_inputs (fst x_w2) (bcalls x_hide))) = true) /\
  (witness (acalls x_hide) (snd x_w1) [12%N] /\ witness (acalls x_hide) (snd x_w2) [12%N]) /\
  (exists k, xreaching true false true 8 (repeat true 8) (repeat false 8) 11 12 x_key (fun _ _ => 0%N) 5 1 2 1 PropWire.demo_G PropWire.demo_H
     77 x_akey 6 2 2 PropXWire.x_G PropWire.demo_H (x_early 199) x_hide k (outside x_hide_end) x_w1 (repeat false 132, repeat false 128, repeat 0%N 5)) /\
  read_data (e_reads (n_s x_hide_end)) = [[7; 8]%N; enc_block 3; enc64 9; enc_block 77] /\ uroles 1 2 2 0 0 0 x_hide = [UData; URel; UPoly; UMul] /\
  u_of 1 2 2 x_hide (n_s x_hide_end) UPoly = [enc64 9] /\
  (exists x, n_v x_hide_end = PDone x /\ length x = 199) /\ (exists p, n_p x_hide_end = PDone (Some p) /\ xp_got p = [[7; 8]%N]).
Proof.
  split; [split; [intro i; apply N.testbit_even_0|]; split; [split; reflexivity|]; split; [|reflexivity]|].
  { split; [|reflexivity]. intro i. unfold canon, x_akey. pose proof (Nat.mod_upper_bound i 8 ltac:(discriminate)) as L.
    apply N.lt_trans with 8%N; [|reflexivity]. clear - L. set (m := i mod 8) in *. clearbody m. lia. }
  split; [split; [reflexivity|]; split; [split; [lia|right; vm_compute; lia]|]|].
  { split; [lia|]. split; [lia|]. split; [lia|]. split; repeat (apply Forall_cons; [cbn; repeat split; repeat constructor|]); constructor. }
  split; [repeat split; reflexivity|].
  split; [split; (split; [reflexivity|]; split; [repeat constructor|]; split; vm_compute; reflexivity)|]. split.
  - destruct (PropWire.play_steps true false true 8 400 x_hide_start 0 x_hide_start (NRefl _ _ _ _ _)) as [k Hk].
    exists k. split; [vm_compute; reflexivity|]. split; [vm_compute; reflexivity|]. split; [split; [vm_compute; reflexivity|repeat constructor]|].
    exists x_hide_end. split; [exact Hk|reflexivity].
  - do 3 (split; [vm_compute; reflexivity|]). split; [eexists; split; [vm_compute; reflexivity|reflexivity]|].
    eexists; split; [vm_compute; reflexivity|reflexivity].
Qed.

Print Assumptions C69_hiding.
