(** Property C60: whole sessions of the boolean engine in which gates and queued relations alternate. *)
From Coq Require Import NArith List Bool Arith Lia.
From Verif Require Import Word GF128 BoolModel BoolSpec BoolThms BoolPolyModel BoolPolySpec HideSpec LowMcModel LowMcSpec BSessModel BSessSpec
  BSessThms GameSpec CountAlg BSessGame BSessHideSpec BSessHide BSessApps.
Import ListNotations.

(** An honest prover whose relations are true is accepted, and both sides obtain the plain outputs, however gates and relations
    alternate and whatever the challenges. *)
Theorem C60_honest_session :
  forall r0 r1 pM threads csz psz seeds rseeds ope (D : Type) (Deqb : D -> D -> bool) (H : list N -> D) prog p d,
  (forall a, Deqb a a = true) -> valid_delta d -> 1 <= psz -> (forall k, length (ope k) = 128) ->
  wf_prog 0 prog = true -> all_hold (brels prog) = true ->
  bp_exec r0 r1 pM threads csz psz seeds rseeds ope prog = Some p ->
  exists v, bv_exec r0 r1 (cot_key pM d) d threads csz psz seeds rseeds (fun k => map (ot_key d) (ope k))
              (fun i => nth i (p_bits (bp_gates p)) false) (fun k => nth k (p_msgs (bp_gates p)) (0, 0)%N)
              (fun k => nth k (pp_msgs (bp_poly p)) (0, 0)%N) prog = Some v /\
    v_outs (bv_gates v) = bouts prog /\ p_outs (bp_gates p) = bouts prog /\
    bv_finalize Deqb H v (H (p_hash (bp_gates p))) = false.
Proof. exact bsess_complete. Qed.
(** the session is free of undefined behaviour exactly when that of its gates is: relations add no condition *)
Theorem C60_session_defined : forall r0 r1 pM threads csz psz seeds rseeds ope prog,
  1 <= threads -> threads <= csz -> wf_prog 0 prog = true ->
  ((exists p, bp_exec r0 r1 pM threads csz psz seeds rseeds ope prog = Some p) <->
   (count_and (gates_of prog) = 0 \/ threads <= last_batch csz (count_and (gates_of prog)))).
Proof. exact bsess_defined. Qed.

(** three inputs, an AND gate, relations on its output before it is revealed *)
Definition s_prog : list bop :=
  [OGate (GIn true); OGate (GIn true); OGate (GIn false); OGate (GAnd 0 1); OPoly (BInn [0; 3] [1; 2] true); OGate (GXor 3 2);
   OPoly (BInnEq [0; 3] [4; 1] [2] [2]); OGate (GReveal 4); OPoly (BDeg2 [0; 2] [1; 1] [true; true; false])].
Definition s_pM (i : nat) : N := (N.of_nat i * N.of_nat i * 12345 + 7 * N.of_nat i + N.of_nat i / 3)%N.
Definition s_ope (k : nat) : list N := map (fun j => (N.of_nat j * 991 + 17 * N.of_nat k + N.of_nat j / 5)%N) (seq 0 128).
Definition s_seeds (k i : nat) : N := (99 * N.of_nat k + N.of_nat i + 3)%N.
Definition s_rseeds (k : nat) : N := (1000 * N.of_nat k + 77)%N.
Definition s_delta : N := 0xABCDEF0123456789ABCDEF0123456789.
Definition leq (a b : list N) : bool := if list_eq_dec N.eq_dec a b then true else false.
Example C60_honest_example :
  wf_prog 0 s_prog = true /\ brels s_prog = [false; false; false] /\ bouts s_prog = [true] /\
  match bp_exec 11 12 s_pM 1 2 2 s_seeds s_rseeds s_ope s_prog with
  | Some p =>
      length (pp_msgs (bp_poly p)) = 2 /\ length (p_msgs (bp_gates p)) = 1 /\
      match bv_exec 11 12 (cot_key s_pM s_delta) s_delta 1 2 2 s_seeds s_rseeds (fun k => map (ot_key s_delta) (s_ope k))
              (fun i => nth i (p_bits (bp_gates p)) false) (fun k => nth k (p_msgs (bp_gates p)) (0, 0)%N)
              (fun k => nth k (pp_msgs (bp_poly p)) (0, 0)%N) s_prog with
      | Some v => v_outs (bv_gates v) = [true] /\ bv_finalize leq (fun l => l) v (p_hash (bp_gates p)) = false
      | None => False
      end
  | None => False
  end.
Proof. vm_compute. repeat split. Qed.

(** An accepted session with a wrong output or a false relation: at most two keys, or an AND challenge annihilates the errors of its
    batch, or a relation challenge those of its batch, or the hash collides. *)
Theorem C60_session_soundness :
  forall r0 r1 pM ope threads csz psz seeds rseeds bitmsg chkmsg relmsg (D : Type) (Deqb : D -> D -> bool) (H : list N -> D) dig prog deltas,
  (forall a b, Deqb a b = true -> a = b) -> NoDup deltas -> 1 <= psz -> wf_prog 0 prog = true ->
  (forall k, (fst (relmsg k) < 2 ^ 128)%N) ->
  let cm := commit pM csz bitmsg (gates_of prog) in
  let q := bwith_inputs (c_ins cm) prog in
  let exec d := bv_exec r0 r1 (cot_key pM d) d threads csz psz seeds rseeds (fun k => map (ot_key d) (ope k)) bitmsg chkmsg relmsg prog in
  (forall d, In d deltas -> valid_delta d /\
     exists v, exec d = Some v /\ bv_finalize Deqb H v dig = false /\
               (v_outs (bv_gates v) <> bouts q \/ all_hold (brels q) = false)) ->
  length deltas <= 2 \/
  (exists k errs rs, nth_error (batches cm) k = Some errs /\ In true errs /\
     and_ranges threads (length errs) = Some rs /\ combined_error rs (seeds k) errs = 0%N) \/
  (exists k errs, nth_error (chunks psz (committed_rels (c_wires cm) prog)) k = Some errs /\ In true errs /\
     range_error (rseeds k) errs = 0%N) \/
  (exists d1 d2 v1 v2, In d1 deltas /\ In d2 deltas /\ exec d1 = Some v1 /\ exec d2 = Some v2 /\
     v_hash (bv_gates v1) <> v_hash (bv_gates v2) /\ H (v_hash (bv_gates v1)) = H (v_hash (bv_gates v2))).
Proof. exact bsess_soundness. Qed.

(** Counted: the verifier draws a key from [deltas], one AND seed per worker and check from [X], one relation seed per check from [Y].
    The prover's bits may depend on all challenges it has seen, its replies and digest on all of them.  A fraction
    2/|deltas| + n/|X| + m/|Y| of the choices at most lets it cheat (n AND gates, m relations), unless two runs collide. *)
Theorem C60_cheating_choices : forall r0 r1 pM ope t csz psz prog (D : Type) (Deqb : D -> D -> bool) (H : list N -> D)
    bit reply preply digest (X Y deltas : list N),
  1 <= t -> 1 <= csz -> 1 <= psz -> wf_prog 0 prog = true -> all_covered t csz (count_and (gates_of prog)) ->
  NoDup X -> Forall (fun x => (x < 2 ^ 128)%N) X -> NoDup Y -> Forall (fun x => (x < 2 ^ 128)%N) Y ->
  (forall a b : D, Deqb a b = true -> a = b) -> NoDup deltas -> Forall valid_delta deltas ->
  (forall s r k, (fst (preply s r k) < 2 ^ 128)%N) ->
  let n := count_and (gates_of prog) in let m := count_rel prog in
  let Bm := num_checks csz n in let Br := num_checks psz m in
  let SS := tuples Bm (tuples t X) in let RR := tuples Br Y in
  let space := list_prod (list_prod SS RR) deltas in
  length space = length X ^ (t * Bm) * length Y ^ Br * length deltas /\
  ((exists s r d1 d2 v1 v2, In s SS /\ In r RR /\ In d1 deltas /\ In d2 deltas /\
      bgame r0 r1 pM ope t csz psz prog bit reply preply s r d1 = Some v1 /\
      bgame r0 r1 pM ope t csz psz prog bit reply preply s r d2 = Some v2 /\
      v_hash (bv_gates v1) <> v_hash (bv_gates v2) /\ H (v_hash (bv_gates v1)) = H (v_hash (bv_gates v2))) \/
   cnt (fun x => bcheats r0 r1 pM ope t csz psz prog D Deqb H bit reply preply digest (fst (fst x)) (snd (fst x)) (snd x)) space <=
     2 * (length X ^ (t * Bm) * length Y ^ Br) +
     (n * length X ^ (t * Bm - 1) * length Y ^ Br + m * length X ^ (t * Bm) * length Y ^ (Br - 1)) * length deltas).
Proof.
  intros r0 r1 pM ope t csz psz prog D Deqb H bit reply preply digest X Y deltas Ht Hc Hp Wf Hcov NX LX NY LY Hd Nd Vd Hr n m Bm Br SS RR space.
  split.
  - unfold space, SS, RR. rewrite !prod_length, !tuples_len. now rewrite Nat.pow_mul_r.
  - destruct (count_bcheats r0 r1 pM ope t csz psz prog D Deqb H bit reply preply digest X Y deltas Ht Hc Hp Wf Hcov NX LX NY LY Hd Nd Vd Hr)
      as [(s & r & Hs & Hr' & d1 & d2 & v1 & v2 & Hx)|C]; [left|right; exact C].
    exists s, r, d1, d2, v1, v2. split; [exact Hs|]. split; [exact Hr'|exact Hx].
Qed.
(** a prover that claims 1*1 = 0 with zero labels and zero replies: every accepted choice has the relation seed 0 *)
Definition c_prog : list bop :=
  [OGate (GIn true); OGate (GIn true); OPoly (BInn [0] [1] false); OGate (GIn false); OGate (GAnd 2 2); OPoly (BInn [2] [3] false); OGate (GReveal 3)].
Definition c_bit (s : list (list N)) (r : list N) (i : nat) : bool := match i with 0 | 1 => true | _ => false end.
Definition c_wins := bcheats 11 12 (fun _ => 0%N) (fun _ => repeat 0%N 128) 1 1 1 c_prog (list N) leq (fun l => l) c_bit (fun _ _ _ => (0, 0)%N)
  (fun _ _ _ => (0, 0)%N) (fun _ _ => [0]%N).
Example C60_cheating_example :
  wf_prog 0 c_prog = true /\ count_and (gates_of c_prog) = 1 /\ count_rel c_prog = 2 /\ num_checks 1 2 = 2 /\
  bseen 1 1 0 0 c_prog = [(0, 0); (0, 0); (0, 0); (0, 0); (0, 1)] /\
  cnt (fun x => c_wins (fst (fst x)) (snd (fst x)) (snd x))
    (list_prod (list_prod (tuples 1 (tuples 1 [1; 2]%N)) (tuples 2 [0; 1; 2]%N)) [3; 5; 7]%N) = 18 /\
  c_wins [[1]]%N [0; 2]%N 5 = true /\ c_wins [[1]]%N [1; 0]%N 5 = false.
Proof. vm_compute. repeat split. Qed.

(** /repo/test/bool/inner_prdt.cpp: the program is accepted on every witness with the claimed inner product, and at most a fraction
    2/|deltas| + repeat/|Y| of the choices accepts a prover committed to any other; no collision can occur, nothing is hashed. *)
Theorem C60_inner_test_honest :
  forall r0 r1 pM threads csz psz seeds rseeds ope (D : Type) (Deqb : D -> D -> bool) (H : list N -> D) sz rep w k d,
  (forall a, Deqb a a = true) -> valid_delta d -> 1 <= psz -> 1 <= threads -> threads <= csz -> (forall k, length (ope k) = 128) ->
  length w = 2 * sz -> inner_ok sz k w = true ->
  exists p v, bp_exec r0 r1 pM threads csz psz seeds rseeds ope (binner_app sz rep w k) = Some p /\
    bv_exec r0 r1 (cot_key pM d) d threads csz psz seeds rseeds (fun k => map (ot_key d) (ope k))
      (fun i => nth i (p_bits (bp_gates p)) false) (fun k => nth k (p_msgs (bp_gates p)) (0, 0)%N)
      (fun k => nth k (pp_msgs (bp_poly p)) (0, 0)%N) (binner_app sz rep w k) = Some v /\
    bv_finalize Deqb H v (H (p_hash (bp_gates p))) = false.
Proof. exact inner_honest. Qed.
Theorem C60_inner_test : forall r0 r1 pM ope t csz psz sz rep w (D : Type) (Deqb : D -> D -> bool) (H : list N -> D) bit reply preply digest Y deltas,
  1 <= t -> 1 <= csz -> 1 <= psz -> 1 <= rep -> length w = 2 * sz -> NoDup Y -> Forall (fun x => (x < 2 ^ 128)%N) Y ->
  (forall a b : D, Deqb a b = true -> a = b) -> NoDup deltas -> Forall valid_delta deltas -> (forall s r k, (fst (preply s r k) < 2 ^ 128)%N) ->
  let Br := num_checks psz rep in forall k,
  cnt (fun x => baccepts_bad r0 r1 pM ope t csz psz (binner_app sz rep w k) D Deqb H bit reply preply digest (inner_ok sz k) [] (fst x) (snd x))
      (list_prod (tuples Br Y) deltas) <= 2 * length Y ^ Br + rep * length Y ^ (Br - 1) * length deltas.
Proof. exact inner_test. Qed.
(** /repo/test/bool/polynomial.cpp *)
Theorem C60_poly_test_honest :
  forall r0 r1 pM threads csz psz seeds rseeds ope (D : Type) (Deqb : D -> D -> bool) (H : list N -> D) sz rep w k d,
  (forall a, Deqb a a = true) -> valid_delta d -> 1 <= psz -> 1 <= threads -> threads <= csz -> (forall k, length (ope k) = 128) ->
  length w = 2 * sz -> poly_ok sz k w = true ->
  exists p v, bp_exec r0 r1 pM threads csz psz seeds rseeds ope (bpoly_app sz rep w k) = Some p /\
    bv_exec r0 r1 (cot_key pM d) d threads csz psz seeds rseeds (fun k => map (ot_key d) (ope k))
      (fun i => nth i (p_bits (bp_gates p)) false) (fun k => nth k (p_msgs (bp_gates p)) (0, 0)%N)
      (fun k => nth k (pp_msgs (bp_poly p)) (0, 0)%N) (bpoly_app sz rep w k) = Some v /\
    bv_finalize Deqb H v (H (p_hash (bp_gates p))) = false.
Proof. exact poly_honest. Qed.
Theorem C60_poly_test : forall r0 r1 pM ope t csz psz sz rep w (D : Type) (Deqb : D -> D -> bool) (H : list N -> D) bit reply preply digest Y deltas,
  1 <= t -> 1 <= csz -> 1 <= psz -> 1 <= rep -> length w = 2 * sz -> NoDup Y -> Forall (fun x => (x < 2 ^ 128)%N) Y ->
  (forall a b : D, Deqb a b = true -> a = b) -> NoDup deltas -> Forall valid_delta deltas -> (forall s r k, (fst (preply s r k) < 2 ^ 128)%N) ->
  let Br := num_checks psz rep in forall k,
  cnt (fun x => baccepts_bad r0 r1 pM ope t csz psz (bpoly_app sz rep w k) D Deqb H bit reply preply digest (poly_ok sz k) [] (fst x) (snd x))
      (list_prod (tuples Br Y) deltas) <= 2 * length Y ^ Br + rep * length Y ^ (Br - 1) * length deltas.
Proof. exact poly_test. Qed.
Definition t_w : list bool := [true; true; false; true; true; true].
Definition t_bit (s : list (list N)) (r : list N) (i : nat) : bool := nth i t_w false.
Definition t_wins k := baccepts_bad 11 12 (fun _ => 0%N) (fun _ => repeat 0%N 128) 1 2 2 (binner_app 3 3 t_w k) (list N) leq (fun l => l) t_bit
  (fun _ _ _ => (0, 0)%N) (fun _ _ _ => (0, 0)%N) (fun _ _ => []) (inner_ok 3 k) [].
Definition u_wins k := baccepts_bad 11 12 (fun _ => 0%N) (fun _ => repeat 0%N 128) 1 2 2 (bpoly_app 3 3 t_w k) (list N) leq (fun l => l) t_bit
  (fun _ _ _ => (0, 0)%N) (fun _ _ _ => (0, 0)%N) (fun _ _ => []) (poly_ok 3 k) [].
Example C60_tests_example :
  inner_ok 3 false t_w = true /\ inner_ok 3 true t_w = false /\ poly_ok 3 [true; true; false; true] t_w = true /\
  poly_ok 3 [false; true; true; true] t_w = true /\ poly_ok 3 [true; true; true; true] t_w = false /\
  cnt (fun x => t_wins true (fst x) (snd x)) (list_prod (tuples 2 [0; 1; 2]%N) [3; 5; 7]%N) = 6 /\
  cnt (fun x => t_wins false (fst x) (snd x)) (list_prod (tuples 2 [0; 1; 2]%N) [3; 5; 7]%N) = 0 /\
  cnt (fun x => u_wins [true; true; true; true] (fst x) (snd x)) (list_prod (tuples 2 [0; 1; 2]%N) [3; 5; 7]%N) = 6.
Proof. vm_compute. repeat split. Qed.

(** /repo/test/bool/lowmc.cpp: of the choices of key and seeds, at most a fraction 2/|deltas| + m/|xs| (m AND gates) accepts a ciphertext
    that is not the LowMC encryption of the committed message under the committed key, unless two runs collide. *)
Theorem C60_lowmc_cheating_choices : forall nb n k nr lin rc km key msg nblocks r0 r1 pM t csz (D : Type) (Deqb : D -> D -> bool) (H : list N -> D)
    bit reply digest (xs deltas : list N),
  1 <= k -> 1 <= n -> 3 * nb <= n -> length rc = nr * n -> length key = k -> length msg = nblocks * n ->
  let m := nblocks * (nr * (3 * nb)) in
  1 <= t -> 1 <= csz -> all_covered t csz m ->
  NoDup xs -> Forall (fun x => (x < 2 ^ 128)%N) xs -> NoDup deltas -> Forall valid_delta deltas ->
  (forall a b, Deqb a b = true -> a = b) ->
  let c := lowmc_program nb n k nr lin rc km key msg nblocks in
  let B := num_checks csz m in let q := length xs in
  (exists s d1 d2 v1 v2, In s (tuples B (tuples t xs)) /\ In d1 deltas /\ In d2 deltas /\
      game_exec r0 r1 pM t csz c bit reply s d1 = Some v1 /\ game_exec r0 r1 pM t csz c bit reply s d2 = Some v2 /\
      v_hash v1 <> v_hash v2 /\ H (v_hash v1) = H (v_hash v2)) \/
  cnt (fun x => outs_differ r0 r1 pM t csz c D Deqb H bit reply digest
                  (fun ins => lowmc_ref nb n k nr lin rc km (firstn k ins) (skipn k ins) nblocks) (fst x) (snd x))
      (list_prod (tuples B (tuples t xs)) deltas)
    <= 2 * q ^ (t * B) + m * q ^ (t * B - 1) * length deltas.
Proof. exact lowmc_count. Qed.

(** Hiding.  Whatever function of everything sent the challenges are: for one witness every transcript comes from at most one choice of
    the prover's random bits, and two witnesses with the same outputs that satisfy the relations have the same possible transcripts. *)
Theorem C60_hiding : forall r0 r1 key rkey d threads csz psz A R prog,
  valid_keys key -> valid_rkeys rkey -> valid_delta d -> 1 <= psz -> wf_prog 0 prog = true -> session_ok threads csz (gates_of prog) ->
  let H := bhonest r0 r1 key rkey d threads csz psz A R prog in
  (forall ins u ru p u' ru' p', H ins u ru p -> H ins u' ru' p' -> bview p = bview p' -> u = u' /\ ru = ru') /\
  (forall ins ins', bouts (bwith_inputs ins prog) = bouts (bwith_inputs ins' prog) ->
     all_hold (brels (bwith_inputs ins prog)) = true -> all_hold (brels (bwith_inputs ins' prog)) = true ->
     forall t, (exists u ru p, H ins u ru p /\ bview p = t) <-> (exists u ru p, H ins' u ru p /\ bview p = t)).
Proof. exact bsess_hiding. Qed.
(** the sessions exist for every choice of the random bits, when each challenge depends on what was sent before it *)
Theorem C60_hiding_defined : forall r0 r1 key rkey d threads csz psz (F : challenger) (G : nat -> view_t -> list (N * N) -> N) prog,
  1 <= psz -> wf_prog 0 prog = true -> session_ok threads csz (gates_of prog) ->
  let A := fun t : bview_t => challenges F (fst (fst (fst t))) (snd (fst (fst t))) in
  let R := fun (t : bview_t) k => G k (fst t) (firstn k (snd t)) in
  forall ins u ru, length u = entropy csz (gates_of prog) -> length ru = rel_entropy psz prog ->
  exists p, bhonest r0 r1 key rkey d threads csz psz A R prog ins u ru p.
Proof. exact bsess_hiding_defined. Qed.
Definition h_prog : list bop :=
  [OGate (GIn true); OGate (GIn true); OGate (GIn false); OGate (GAnd 0 1); OPoly (BInn [0; 3] [2; 3] false); OGate (GXor 3 2);
   OPoly (BInn [1] [2] false); OGate (GReveal 4)].
Definition h_key (i : nat) : N := (2 * N.of_nat (i * i + 3 * i + 1))%N.
Definition h_rkey (k j : nat) : N := (2 * (N.of_nat k * 77 + N.of_nat j * N.of_nat j))%N.
Example C60_hiding_example :
  valid_delta s_delta /\ valid_keys h_key /\ valid_rkeys h_rkey /\ wf_prog 0 h_prog = true /\ session_ok 1 2 (gates_of h_prog) /\
  entropy 2 (gates_of h_prog) = 132 /\ rel_entropy 1 h_prog = 256 /\
  bouts (bwith_inputs [false; true; false] h_prog) = [false] /\ bouts (bwith_inputs [true; false; false] h_prog) = [false] /\
  brels (bwith_inputs [false; true; false] h_prog) = [false; false] /\ brels (bwith_inputs [true; false; false] h_prog) = [false; false].
Proof.
  split; [split; reflexivity|]. split; [intro i; apply N.testbit_even_0|]. split; [intros k j; apply N.testbit_even_0|].
  split; [reflexivity|]. split; [split; [lia|right; vm_compute; lia]|]. repeat split.
Qed.

Print Assumptions C60_honest_session.
Print Assumptions C60_session_defined.
Print Assumptions C60_session_soundness.
Print Assumptions C60_cheating_choices.
Print Assumptions C60_inner_test_honest.
Print Assumptions C60_inner_test.
Print Assumptions C60_poly_test_honest.
Print Assumptions C60_poly_test.
Print Assumptions C60_lowmc_cheating_choices.
Print Assumptions C60_hiding.
Print Assumptions C60_hiding_defined.
