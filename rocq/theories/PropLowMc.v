(** Property C38 (LowMC). *)
From Coq Require Import NArith List Bool Arith Lia Permutation.
From Verif Require Import Word WordProofs GF128 BoolModel BoolSpec BoolProofs BoolAlg BoolThms BoolThms2.
From Verif Require Import LowMcModel LowMcSpec LowMcProofs LowMcCirc LowMcThms.
Import ListNotations.

(** the in-place formula S-box layer is the table S-box on the first 3*nb bits *)
Theorem C38_sbox_layer_is_table : forall nb st, 3 * nb <= length st -> substitution nb st = sbox_layer nb st.
Proof. exact substitution_spec. Qed.
Theorem C38_sbox_is_a_permutation : Permutation sbox_table (seq 0 8).
Proof.
  apply NoDup_Permutation; [|apply seq_NoDup|].
  - repeat constructor; cbn; intuition lia.
  - intro x. cbn. intuition lia.
Qed.
Theorem C38_sbox_layer_bijective : forall nb n, 3 * nb <= n ->
  forall w, length w = n -> exists! v, length v = n /\ substitution nb v = w.
Proof.
  intros nb n Hn w Hw.
  destruct (inj_surj n (sbox_layer nb)) with (w := w) as [v [Lv Ev]]; auto.
  - intros v Lv. now rewrite sbox_layer_length.
  - intros a b La Lb. apply sbox_layer_inj. congruence.
  - exists v. split; [split; auto; now rewrite substitution_spec by lia|].
    intros u [Lu Eu]. rewrite substitution_spec in Eu by lia.
    apply (sbox_layer_inj nb); congruence.
Qed.
(** the plain path is LowMC: every key, message, matrix set and constant *)
Theorem C38_plain_path_is_lowmc : forall nb n k nr lin rc km key msg nblocks,
  1 <= k -> 3 * nb <= n -> length rc = nr * n -> length msg = nblocks * n ->
  encrypt nb n nr lin rc (keyschedule n k nr km key) msg nblocks =
  lowmc_ref nb n k nr lin rc km key msg nblocks.
Proof. intros. now apply encrypt_spec. Qed.
(** the authenticated program reveals exactly what the plain path computes *)
Theorem C38_paths_agree : forall nb n k nr lin rc km key msg nblocks,
  1 <= k -> 1 <= n -> 3 * nb <= n -> length rc = nr * n -> length key = k -> length msg = nblocks * n ->
  plain_outputs (lowmc_program nb n k nr lin rc km key msg nblocks) =
  encrypt nb n nr lin rc (keyschedule n k nr km key) msg nblocks.
Proof. intros. now apply program_spec. Qed.
Theorem C38_program_is_lowmc : forall nb n k nr lin rc km key msg nblocks,
  1 <= k -> 1 <= n -> 3 * nb <= n -> length rc = nr * n -> length key = k -> length msg = nblocks * n ->
  plain_outputs (lowmc_program nb n k nr lin rc km key msg nblocks) =
  lowmc_ref nb n k nr lin rc km key msg nblocks.
Proof. intros. now apply program_ref. Qed.
(** the same inside any computation: message, round keys and constants on arbitrary existing
    wires; earlier wires and outputs are untouched *)
Theorem C38_encrypt_in_context : forall nb n nr z ws lin rc rk msg nblocks outs,
  z < length ws -> nth z ws false = false -> 1 <= n -> 3 * nb <= n ->
  Forall (fun i => i < length ws) (rc ++ rk ++ msg) ->
  length rc = nr * n -> length rk = (nr + 1) * n -> length msg = nblocks * n ->
  let val := map (fun i => nth i ws false) in
  let '(gs, ct) := g_encrypt nb n nr z (length ws) lin rc rk msg nblocks in
  exists new, plain_eval ws outs gs = (ws ++ new, outs) /\
    map (fun i => nth i (ws ++ new) false) ct = encrypt nb n nr lin (val rc) (val rk) (val msg) nblocks.
Proof.
  intros nb n nr z ws lin rc rk msg nblocks outs Hz Vz Hn Hnb F Lrc Lrk Lm val.
  apply Forall_app in F. destruct F as [Frc F]. apply Forall_app in F. destruct F as [Frk Fm].
  pose proof (does_encrypt nb n nr z ws lin rc rk (val rc) (val rk) msg (val msg) nblocks Hz Vz Hn Hnb) as D.
  destruct (g_encrypt nb n nr z (length ws) lin rc rk msg nblocks) as [gs ct].
  destruct D as [P [_ E] _]; try (split; [assumption|reflexivity]); try (unfold val; now rewrite map_length).
  destruct (wires_ext gs ws) as [new [_ En]]. exists new. cbn [fst snd] in *. rewrite En in E. split; [|exact E].
  rewrite <- (app_nil_r gs), plain_eval_pure; [now rewrite En|]. eapply Forall_impl; [|exact P]. now intros [].
Qed.
(** AND gates: 3 per S-box, none in the key schedule *)
Theorem C38_and_count : forall nb n k nr lin rc km key msg nblocks,
  1 <= k -> 1 <= n -> 3 * nb <= n -> length rc = nr * n -> length key = k -> length msg = nblocks * n ->
  count_and (lowmc_program nb n k nr lin rc km key msg nblocks) = nblocks * (nr * (3 * nb)).
Proof. intros. now apply program_spec. Qed.
(** an honest proof of encryption is accepted and both parties obtain the LowMC ciphertext *)
Theorem C38_honest_session :
  forall r0 r1 pM threads csz seeds (D : Type) (Deqb : D -> D -> bool) (H : list N -> D)
         nb n k nr lin rc km key msg nblocks p d,
  1 <= k -> 1 <= n -> 3 * nb <= n -> length rc = nr * n -> length key = k -> length msg = nblocks * n ->
  (forall a, Deqb a a = true) -> valid_delta d ->
  let c := lowmc_program nb n k nr lin rc km key msg nblocks in
  prv_exec r0 r1 pM threads csz seeds c = Some p ->
  exists v, ver_exec r0 r1 (cot_key pM d) d threads csz seeds
              (fun i => nth i (p_bits p) false) (fun q => nth q (p_msgs p) (0, 0)%N) c = Some v /\
    v_outs v = lowmc_ref nb n k nr lin rc km key msg nblocks /\
    p_outs p = lowmc_ref nb n k nr lin rc km key msg nblocks /\
    ver_finalize Deqb H v (H (p_hash p)) = false.
Proof.
  intros r0 r1 pM threads csz seeds D Deqb H nb n k nr lin rc km key msg nblocks p d Hk Hn Hnb Lrc Lk Lm Hd Vd c E.
  rewrite <- program_ref by assumption. fold c. now apply session_complete.
Qed.
(** soundness: an accepted session (outside the error terms of C05) reveals the LowMC
    ciphertext of the key and message the prover committed to *)
Theorem C38_session_soundness :
  forall nb n k nr lin rc km,
  1 <= k -> 1 <= n -> 3 * nb <= n -> length rc = nr * n ->
  forall r0 r1 pM threads csz seeds bitmsg chkmsg (D : Type) (Deqb : D -> D -> bool)
         (H : list N -> D) dig key msg nblocks deltas,
  (forall a b, Deqb a b = true -> a = b) -> NoDup deltas -> length key = k -> length msg = nblocks * n ->
  let c := lowmc_program nb n k nr lin rc km key msg nblocks in
  let cm := commit pM csz bitmsg c in
  let exec d := ver_exec r0 r1 (cot_key pM d) d threads csz seeds bitmsg chkmsg c in
  let '(ckey, cmsg) := (firstn k (c_ins cm), skipn k (c_ins cm)) in
  (forall d, In d deltas -> valid_delta d /\
     exists v, exec d = Some v /\ ver_finalize Deqb H v dig = false /\
               v_outs v <> lowmc_ref nb n k nr lin rc km ckey cmsg nblocks) ->
  length deltas <= 2 \/
  (exists q errs rs, nth_error (batches cm) q = Some errs /\ In true errs /\
     and_ranges threads (length errs) = Some rs /\ combined_error rs (seeds q) errs = 0%N) \/
  (exists d1 d2 v1 v2, In d1 deltas /\ In d2 deltas /\ exec d1 = Some v1 /\ exec d2 = Some v2 /\
     v_hash v1 <> v_hash v2 /\ H (v_hash v1) = H (v_hash v2)).
Proof. exact session_sound. Qed.
(** the gates do not depend on key and message: the verifier, who passes any arrays of the right
    length, emits the same program up to the values of its inputs *)
Theorem C38_program_oblivious : forall nb n k nr lin rc km key msg key' msg' nblocks,
  length key' = length key -> length msg' = length msg ->
  with_inputs (key' ++ msg') (lowmc_program nb n k nr lin rc km key msg nblocks) =
  lowmc_program nb n k nr lin rc km key' msg' nblocks.
Proof. exact program_with_inputs. Qed.
(** encryption under any key is injective exactly when every linear layer is; nothing in the code
    checks this for the pseudorandom matrices *)
Theorem C38_injective_iff_linear_layers : forall nb n k L C K nr key,
  (forall r, 1 <= r <= nr -> length (C r) = n) ->
  ((forall a b, length a = n -> length b = n -> lowmc nb n k L C K nr key a = lowmc nb n k L C K nr key b -> a = b) <->
   (forall q, 1 <= q <= nr -> lin_injective (L q) n)).
Proof. intros. now apply enc_injective_iff. Qed.
Theorem C38_singular_matrix_refuted : exists lin, length lin = rounds * blocksize * blocksize /\
  forall rc km key, length rc = rounds * blocksize ->
  forall m1 m2, length m1 = blocksize -> length m2 = blocksize ->
  encrypt numofboxes blocksize rounds lin rc (keyschedule blocksize keysize rounds km key) m1 1 =
  encrypt numofboxes blocksize rounds lin rc (keyschedule blocksize keysize rounds km key) m2 1.
Proof.
  exists (repeat false (rounds * blocksize * blocksize)). split; [apply repeat_length|].
  intros rc km key Lrc m1 m2 L1 L2.
  assert (Z : forall m, length m = blocksize ->
    encrypt numofboxes blocksize rounds (repeat false (rounds * blocksize * blocksize)) rc
      (keyschedule blocksize keysize rounds km key) m 1 =
    vxor (vxor (mat_vec (fun _ _ => false) blocksize blocksize []) (const_row blocksize rc rounds))
         (round_key blocksize keysize (key_entry blocksize keysize km) key rounds)).
  { intros m Lm. rewrite encrypt_spec with (k := keysize); auto; try (unfold numofboxes, blocksize, keysize; lia).
    unfold lowmc_ref. cbn [seq flat_map]. rewrite app_nil_r.
    assert (M : forall r v, mat_vec (lin_entry blocksize (repeat false (rounds * blocksize * blocksize)) r)
                  blocksize blocksize v = mat_vec (fun _ _ => false) blocksize blocksize []).
    { intros r v. unfold mat_vec. apply map_ext. intro j. apply gf2_sum_ext. intros i _.
      unfold lin_entry. now rewrite nth_repeat. }
    generalize dependent (repeat false (rounds * blocksize * blocksize)). intros lin M.
    change (lowmc numofboxes blocksize keysize (lin_entry blocksize lin) (const_row blocksize rc)
              (key_entry blocksize keysize km) rounds key (block_of blocksize m 0))
      with (vxor (vxor (mat_vec (lin_entry blocksize lin rounds) blocksize blocksize
                   (sbox_layer numofboxes (lowmc numofboxes blocksize keysize (lin_entry blocksize lin)
                      (const_row blocksize rc) (key_entry blocksize keysize km) 10 key (block_of blocksize m 0))))
                   (const_row blocksize rc rounds)) (round_key blocksize keysize (key_entry blocksize keysize km) key rounds)).
    now rewrite M. }
  now rewrite !Z.
Qed.

(** a small instance (1 S-box, 4-bit blocks, 3-bit keys, 2 rounds, 2 blocks) and its session *)
Definition ex_lin : list bool :=
  [true;false;true;false; false;true;true;false; false;false;true;true; true;false;false;true;
   false;true;false;false; true;true;false;true; false;false;true;false; true;false;true;true].
Definition ex_rc : list bool := [true;false;false;true; false;true;true;true].
Definition ex_km : list bool :=
  [true;false;true; false;true;true; true;true;false; false;false;true;
   false;true;false; true;true;true; true;false;false; false;true;true;
   true;true;true; true;false;true; false;false;true; true;false;false].
Definition ex_key : list bool := [true; false; true].
Definition ex_msg : list bool := [true;true;false;true; false;true;true;false].
Example C38_example :
  encrypt 1 4 2 ex_lin ex_rc (keyschedule 4 3 2 ex_km ex_key) ex_msg 2 =
    plain_outputs (lowmc_program 1 4 3 2 ex_lin ex_rc ex_km ex_key ex_msg 2) /\
  count_and (lowmc_program 1 4 3 2 ex_lin ex_rc ex_km ex_key ex_msg 2) = 12 /\
  length (lowmc_ref 1 4 3 2 ex_lin ex_rc ex_km ex_key ex_msg 2) = 8 /\
  lowmc_ref 1 4 3 2 ex_lin ex_rc ex_km ex_key ex_msg 2 <> lowmc_ref 1 4 3 2 ex_lin ex_rc ex_km [true;true;true] ex_msg 2 /\
  match prv_exec 11 12 (fun i => N.of_nat (i * i + 3 * i + 1)) 1 5 (fun q i => N.of_nat (77 * q + i + 5))
          (lowmc_program 1 4 3 2 ex_lin ex_rc ex_km ex_key ex_msg 2) with
  | Some p => p_outs p = lowmc_ref 1 4 3 2 ex_lin ex_rc ex_km ex_key ex_msg 2 /\ length (p_msgs p) = 3
  | None => False end.
Proof. vm_compute. repeat split; auto. discriminate. Qed.

Print Assumptions C38_sbox_layer_is_table.
Print Assumptions C38_sbox_is_a_permutation.
Print Assumptions C38_sbox_layer_bijective.
Print Assumptions C38_plain_path_is_lowmc.
Print Assumptions C38_paths_agree.
Print Assumptions C38_program_is_lowmc.
Print Assumptions C38_encrypt_in_context.
Print Assumptions C38_and_count.
Print Assumptions C38_honest_session.
Print Assumptions C38_session_soundness.
Print Assumptions C38_program_oblivious.
Print Assumptions C38_injective_iff_linear_layers.
Print Assumptions C38_singular_matrix_refuted.
