(** C40: what the prover's messages tell the verifier. *)
From Coq Require Import NArith List Bool Arith Lia.
From Verif Require Import Word FpModel GF128 BoolModel BoolSpec ArithModel ArithSpec HideSpec HideThms HideOuts AHideSpec AHideThms2 GfmulModel F2kModel F2kSpec RamModel RamSpec F2kHide.
Import ListNotations.

(** * Boolean engine *)
(** for every witness and randomness there is exactly one honest session *)
Theorem C40_bool_defined : forall r0 r1 key d threads csz F c, valid_keys key -> valid_delta d -> session_ok threads csz c ->
  forall ins u, exists p, honest r0 r1 key d threads csz F c ins u p /\
  forall p', honest r0 r1 key d threads csz F c ins u p' -> p' = p.
Proof.
  intros r0 r1 key d t csz F c Hk Hd Hok ins u. destruct (honest_exists r0 r1 key d t csz F c Hok ins u) as [p H].
  exists p. split; [exact H|]. intros p' H'. now apply (honest_unique r0 r1 key d t csz F c Hk Hd Hok ins u).
Qed.
(** the messages are those of a simulator that has the keys, Delta, the circuit and its outputs
    but not the witness *)
Theorem C40_bool_simulated : forall r0 r1 key d threads csz F c, valid_keys key -> valid_delta d -> session_ok threads csz c ->
  forall ins u p, honest r0 r1 key d threads csz F c ins u p ->
  simulate r0 r1 key d threads csz F c (plain_outputs (with_inputs ins c)) (coins c p) = Some (view p).
Proof. exact view_simulated. Qed.
(** two witnesses with the same outputs: a bijection of the prover's randomness carries every
    session of one to a session of the other with the same messages *)
Theorem C40_bool_bijection : forall r0 r1 key d threads csz F c, valid_keys key -> valid_delta d -> session_ok threads csz c ->
  forall ins ins', plain_outputs (with_inputs ins c) = plain_outputs (with_inputs ins' c) ->
  exists phi psi,
    (forall u, length u = entropy csz c -> length (phi u) = entropy csz c /\ psi (phi u) = u) /\
    (forall u, length u = entropy csz c -> length (psi u) = entropy csz c /\ phi (psi u) = u) /\
    (forall u, length u = entropy csz c -> exists p p',
       honest r0 r1 key d threads csz F c ins u p /\ honest r0 r1 key d threads csz F c ins' (phi u) p' /\ view p = view p').
Proof.
  intros r0 r1 key d t csz F c Hk Hd Hok ins ins' E.
  destruct (view_bijection r0 r1 key d t csz F c Hk Hd Hok ins ins' E) as (phi & psi & H1 & H2 & H3). exists phi, psi.
  split; [exact H1|]. split; [exact H2|]. intros u Hu.
  destruct (honest_exists r0 r1 key d t csz F c Hok ins u) as [p Hp].
  destruct (honest_exists r0 r1 key d t csz F c Hok ins' (phi u)) as [p' Hp']. exists p, p'. eauto.
Qed.
(** different randomness gives different messages, and the possible messages are exactly the
    simulator's: the messages are uniform on a set that does not depend on the witness *)
Theorem C40_bool_uniform : forall r0 r1 key d threads csz F c, valid_keys key -> valid_delta d -> session_ok threads csz c ->
  forall ins,
  (forall u u' p p', length u = entropy csz c -> length u' = entropy csz c ->
     honest r0 r1 key d threads csz F c ins u p -> honest r0 r1 key d threads csz F c ins u' p' -> view p = view p' -> u = u') /\
  (forall t, (exists u p, length u = entropy csz c /\ honest r0 r1 key d threads csz F c ins u p /\ view p = t) <->
     (exists r, length r = entropy csz c /\ simulate r0 r1 key d threads csz F c (plain_outputs (with_inputs ins c)) r = Some t)).
Proof. exact view_uniform. Qed.
Definition h_key (i : nat) : N := N.of_nat (2 * (i * i + 3 * i + 1)).
Definition h_delta : N := 0xABCDEF0123456789ABCDEF0123456789.
Definition h_F : challenger := fun k bits ms i => N.of_nat (77 * k + length bits + 3 * length ms + i + 5).
Definition h_circuit : list gate := [GIn false; GIn false; GAnd 0 1; GIn true; GAnd 2 3; GAnd 0 3; GXor 4 5; GReveal 4].
Example C40_bool_example :
  valid_keys h_key /\ valid_delta h_delta /\ session_ok 1 2 h_circuit /\ entropy 2 h_circuit = 262 /\
  plain_outputs (with_inputs [true; false; true] h_circuit) = plain_outputs (with_inputs [false; true; true] h_circuit) /\
  let r := map (fun i => Nat.eqb (i mod 3) 1) (seq 0 262) in
  match simulate 11 12 h_key h_delta 1 2 h_F h_circuit [false] r with
  | Some (bits, ms, _) => bits = [false; true; false; false; true; false; false] /\ length ms = 2
  | None => False
  end.
Proof.
  split; [intro i; unfold h_key; rewrite Nat2N.inj_mul; change (N.of_nat 2) with 2%N; apply N.testbit_even_0|].
  split; [split; vm_compute; reflexivity|].
  split; [split; [split; repeat constructor|right; vm_compute; repeat constructor]|].
  split; [reflexivity|]. split; [reflexivity|]. vm_compute. split; reflexivity.
Qed.
(** and nothing less than equal outputs would do: equal messages mean equal outputs *)
Theorem C40_bool_outputs_seen : forall r0 r1 key d threads csz F c ins ins' u u' p p',
  valid_keys key -> valid_delta d -> session_ok threads csz c ->
  honest r0 r1 key d threads csz F c ins u p -> honest r0 r1 key d threads csz F c ins' u' p' -> view p = view p' ->
  plain_outputs (with_inputs ins c) = plain_outputs (with_inputs ins' c).
Proof. exact equal_outputs. Qed.

(** * Arithmetic engine *)
Theorem C40_arith_simulated : forall pub_mac key d threads csz psz F G c, canon pub_mac -> (forall h, (G h < 2 ^ 64)%N) ->
  akeys_ok key d -> asession_ok threads csz psz c -> forall ins outs u, witness c ins outs -> Forall canon u ->
  exists p, ahonest pub_mac key d threads csz psz F G c ins u = Some p /\
  asimulate pub_mac key d threads csz psz F G c outs (acoins c p) = Some (aview p).
Proof.
  intros pm key d t csz psz F G c Hm HG Hk Hok ins outs u Hw Hu.
  destruct (ahonest_exists pm key d t csz psz F G c Hok ins u) as [p Hp]. exists p. split; [exact Hp|].
  now apply (aview_simulated pm key d t csz psz F G c Hm HG Hk Hok ins outs u).
Qed.
Theorem C40_arith_bijection : forall pub_mac key d threads csz psz F G c, canon pub_mac -> (forall h, (G h < 2 ^ 64)%N) ->
  akeys_ok key d -> asession_ok threads csz psz c -> forall ins ins' outs, witness c ins outs -> witness c ins' outs ->
  exists phi psi,
    (forall u, fvec (aentropy csz psz c) u -> fvec (aentropy csz psz c) (phi u) /\ psi (phi u) = u) /\
    (forall u, fvec (aentropy csz psz c) u -> fvec (aentropy csz psz c) (psi u) /\ phi (psi u) = u) /\
    (forall u, fvec (aentropy csz psz c) u -> exists p p',
       ahonest pub_mac key d threads csz psz F G c ins u = Some p /\
       ahonest pub_mac key d threads csz psz F G c ins' (phi u) = Some p' /\ aview p = aview p').
Proof.
  intros pm key d t csz psz F G c Hm HG Hk Hok ins ins' outs Hw Hw'.
  destruct (aview_bijection pm key d t csz psz F G c Hm HG Hk Hok ins ins' outs Hw Hw') as (phi & psi & H1 & H2 & H3). exists phi, psi.
  split; [exact H1|]. split; [exact H2|]. intros u Hu.
  destruct (ahonest_exists pm key d t csz psz F G c Hok ins u) as [p Hp].
  destruct (ahonest_exists pm key d t csz psz F G c Hok ins' (phi u)) as [p' Hp']. exists p, p'. eauto.
Qed.
Theorem C40_arith_uniform : forall pub_mac key d threads csz psz F G c, canon pub_mac -> (forall h, (G h < 2 ^ 64)%N) ->
  akeys_ok key d -> asession_ok threads csz psz c -> forall ins outs, witness c ins outs ->
  (forall u u' p p', fvec (aentropy csz psz c) u -> fvec (aentropy csz psz c) u' ->
     ahonest pub_mac key d threads csz psz F G c ins u = Some p -> ahonest pub_mac key d threads csz psz F G c ins u' = Some p' ->
     aview p = aview p' -> u = u') /\
  (forall t, (exists u p, fvec (aentropy csz psz c) u /\ ahonest pub_mac key d threads csz psz F G c ins u = Some p /\ aview p = t) <->
     (exists r, fvec (aentropy csz psz c) r /\ asimulate pub_mac key d threads csz psz F G c outs r = Some t)).
Proof. exact aview_uniform. Qed.
Definition ha_key (i : nat) : N := ((N.of_nat (i * i + 5 * i + 1) * 1000000007 * 998244353) mod prm)%N.
Definition ha_d : N := 1234567890123456789.
Definition ha_F (h : ahist) (i : nat) : N := (N.of_nat (77 * length (fst (fst h)) + i + 5) * 123456789123456789)%N.
Definition ha_G (h : ahist) : N := N.of_nat (13 * length (fst (fst h)) mod 1000 + 7).
(** x*y is opened and checked, x*y*x*y is queried as a relation: (3,4), (4,3) are two witnesses *)
Definition ha_circuit : list agate :=
  [AIn 0; AIn 0; AMul 0 1; AReveal 2; AMul 2 2; ACheck 2 12; APoly [0%nat] [1%nat] [prm - 12; 1]; AInner [2%nat] [2%nat] (prm - 144); AMul 3 3; ASub 2 2; AZero 5]%N.
Example C40_arith_example :
  canon 77 /\ (forall h, (ha_G h < 2 ^ 64)%N) /\ akeys_ok ha_key ha_d /\ asession_ok 1 2 2 ha_circuit /\ aentropy 2 2 ha_circuit = 8 /\
  witness ha_circuit [3; 4]%N [12]%N /\ witness ha_circuit [4; 3]%N [12]%N /\
  match asimulate 77 ha_key ha_d 1 2 2 ha_F ha_G ha_circuit [12]%N [5; 6; 7; 8; 9; 10; 11; 12]%N with
  | Some (ws, ms, pms, _) => ws = [5; 6; 7; 12; 8; 12; 9]%N /\ length ms = 2 /\ length pms = 1
  | None => False
  end.
Proof.
  split; [reflexivity|]. split.
  { intro h. unfold ha_G. set (n := 13 * length (fst (fst h)) mod 1000). assert (n < 1000) by (apply Nat.mod_upper_bound; discriminate).
    clearbody n. change (2 ^ 64)%N with 18446744073709551616%N. lia. }
  split; [split; [intro i; apply N.mod_lt; discriminate|reflexivity]|].
  split.
  { split; [lia|]. split; [lia|]. split; [lia|]. split; repeat (apply Forall_cons; [cbn; repeat split; repeat constructor|]); constructor. }
  split; [reflexivity|].
  split; [split; [reflexivity|]; split; [repeat constructor|]; split; vm_compute; reflexivity|].
  split; [split; [reflexivity|]; split; [repeat constructor|]; split; vm_compute; reflexivity|].
  vm_compute. repeat split.
Qed.

(** * GF(2^128) product proofs: not hiding *)
(** the message of one degree-3 product is a known multiple of the product of the three macs; with the
    verifier's keys k and Delta, mac i is k_i + x_i*Delta *)
Theorem C40_f2k_product_message : forall ext voleV voleM bM oM threads bufsz polysz seeds pseeds junk g1 g2 g3 g4, 1 <= polysz ->
  exists r, fp_pmsgs (fp_exec ext voleV voleM bM oM threads bufsz polysz seeds pseeds junk g1 g2 g3 g4 [FExt; FExt; FExt; FMul3 0 1 2]) = [r] /\
    r0 r = gfmul (pseeds 0) (gfmul (gfmul (snd (ext 0)) (snd (ext 1))) (snd (ext 2))).
Proof. exact product_message. Qed.
(** for the same verifier keys, two witnesses that differ in one factor never give the same message, whatever
    the prover's randomness: the transcripts of the two witnesses are disjoint *)
Theorem C40_f2k_product_refuted : forall voleV voleM bM oM threads bufsz polysz seeds (pseeds : nat -> N) junk g1 g2 g3 g4
    voleV' voleM' bM' oM' junk' g1' g2' g3' g4' d (k x x' : nat -> N),
  1 <= polysz -> valid_delta d -> (forall i, (k i < 2 ^ 128)%N) -> (forall i, (x i < 2 ^ 128)%N) -> (forall i, (x' i < 2 ^ 128)%N) ->
  (pseeds 0%nat < 2 ^ 128)%N -> pseeds 0 <> 0%N ->
  x 0 <> x' 0 -> x 1 = x' 1 -> x 2 = x' 2 -> k 1 <> gfmul (x 1) d -> k 2 <> gfmul (x 2) d ->
  (forall i, key_of d (pair_under d (k i) (x i)) = key_of d (pair_under d (k i) (x' i))) /\
  fp_pmsgs (fp_exec (fun i => pair_under d (k i) (x i)) voleV voleM bM oM threads bufsz polysz seeds pseeds junk g1 g2 g3 g4
              [FExt; FExt; FExt; FMul3 0 1 2]) <>
  fp_pmsgs (fp_exec (fun i => pair_under d (k i) (x' i)) voleV' voleM' bM' oM' threads bufsz polysz seeds pseeds junk' g1' g2' g3' g4'
              [FExt; FExt; FExt; FMul3 0 1 2]).
Proof. intros. split; [intro; now rewrite !key_of_pair|]. now apply product_tells. Qed.
Example C40_f2k_example : let z := fun _ : nat => 0%N in let zz := fun _ _ : nat => 0%N in
  let run x := fp_pmsgs (fp_exec (fun i => pair_under 3 (N.of_nat i + 7) (N.of_nat (if Nat.eqb i 0 then x else i))) zz zz z z 1 8 8 zz
                 (fun _ => 5%N) (fun _ _ => (0, 0)%N) z z z z [FExt; FExt; FExt; FMul3 0 1 2]) in
  valid_delta 3 /\ run 9 <> run 10.
Proof. split; [split; reflexivity|]. vm_compute. discriminate. Qed.
(** the set-equality check of the memories opens its macs, so the verifier computes Delta times the shifted
    products of both lists, i.e. the products themselves (Delta is not zero): with the challenge r it learns the
    value at r of the polynomial whose roots are the packed entries *)
Theorem C40_set_equality_leak : forall ext voleV voleM bM oM threads bufsz polysz seeds pseeds acc_last n r junkp junkv g1 g2 g3 g4 h1 h2 d,
  1 <= threads -> threads <= bufsz -> 6 <= bufsz -> 3 <= n -> (N.of_nat n < 2 ^ 64)%N -> (r < 2 ^ 128)%N ->
  (forall i, i < 2 * n -> (fst (ext i) < 2 ^ 128)%N) -> (forall r i, (junkv r i < 2 ^ 128)%N) -> valid_delta d ->
  (n mod 4 = 1 \/ threads <= 2 * ((n - 1) mod 4)) ->
  exists c a0 a1, seteq_circuit acc_last n r = Some (c, a0, a1) /\
  let p := fp_exec ext voleV voleM bM oM threads bufsz polysz seeds pseeds junkp g1 g2 g3 g4 c in
  exists v, f_session ext voleV voleM bM oM threads bufsz polysz seeds pseeds junkv
       (fun i => nth i (fp_corr p) 0%N) (fun i => nth i (fp_bits p) false)
       (fun k => nth k (fp_msgs p) (0, 0)%N) (fun k => nth k (fp_pmsgs p) (0, 0, 0, 0, 0)%N) h1 h2 c d = Some v /\
    gfmul (shifted_product r (map (fun i => fst (ext i)) (seq 0 n))) d = N.lxor (nth a0 (fv_w v) 0%N) (fst (seteq_msg (fp_w p) a0 a1)) /\
    gfmul (shifted_product r (map (fun i => fst (ext i)) (seq n n))) d = N.lxor (nth a1 (fv_w v) 0%N) (snd (seteq_msg (fp_w p) a0 a1)).
Proof. exact seteq_reveals. Qed.
Theorem C40_delta_divides : forall a b d, (a < 2 ^ 128)%N -> (b < 2 ^ 128)%N -> valid_delta d -> gfmul a d = gfmul b d -> a = b.
Proof. intros a b d Ha Hb [Hd Bd] E. apply (gfmul_cancel_r a b d); auto. intros ->. discriminate. Qed.
Example C40_set_equality_example : (5 mod 4 = 1 \/ 1 <= 2 * ((5 - 1) mod 4)) /\ valid_delta 3 /\
  shifted_product 9 [1; 2; 3; 4; 5]%N <> shifted_product 9 [1; 2; 3; 4; 6]%N.
Proof. split; [now left|]. split; [split; reflexivity|]. vm_compute. discriminate. Qed.

Print Assumptions C40_bool_defined.
Print Assumptions C40_bool_simulated.
Print Assumptions C40_bool_bijection.
Print Assumptions C40_bool_uniform.
Print Assumptions C40_bool_outputs_seen.
Print Assumptions C40_arith_simulated.
Print Assumptions C40_arith_bijection.
Print Assumptions C40_arith_uniform.
Print Assumptions C40_f2k_product_message.
Print Assumptions C40_f2k_product_refuted.
Print Assumptions C40_set_equality_leak.
Print Assumptions C40_delta_divides.
