(** Hiding of sessions with gates and relations. *)
From Coq Require Import NArith List Bool Arith Lia.
From Verif Require Import Word WordProofs GF128 GF128Ring BoolModel BoolSpec BoolProofs BoolAlg BoolThms BoolThms2 HideSpec HideProofs HideThms
  BoolPolyModel BoolPolySpec BoolPolyProofs BoolPolyThms BSessModel BSessSpec BSessProofs BSessThms BSessGame GameSpec BSessHideSpec.
Import ListNotations.
Ltac Zify.zify_post_hook ::= idtac.

Lemma word_bit l : forall j, N.testbit (ch_word l) (N.of_nat j) = getLSB (nth j l 0%N).
Proof.
  induction l as [|m l IH]; intros [|j]; cbn [ch_word nth]; try (rewrite N.bits_0; reflexivity).
  - change (N.of_nat 0) with 0%N. destruct (getLSB m); [apply N.testbit_odd_0|rewrite N.add_0_r; apply N.testbit_even_0].
  - rewrite Nat2N.inj_succ. destruct (getLSB m); [rewrite N.testbit_odd_succ by apply N.le_0_l|rewrite N.add_0_r, N.testbit_even_succ by apply N.le_0_l]; apply IH.
Qed.
Lemma prv_items_len (f : nat -> N) c : length (prv_items (bcall_map f c)) = call_rels c.
Proof. destruct c; cbn [bcall_map prv_items call_rels]; try reflexivity. now rewrite map_length, seq_length. Qed.
Lemma ver_items_len d (f : nat -> N) c : length (ver_items d (bcall_map f c)) = call_rels c.
Proof. destruct c; cbn [bcall_map ver_items call_rels]; try reflexivity. now rewrite map_length, seq_length. Qed.
Lemma flat_rels {B} (it : bcall N -> list B) (f : nat -> N) prog : (forall c, length (it (bcall_map f c)) = call_rels c) ->
  length (flat_map it (map (bcall_map f) (calls_of prog))) = count_rel prog.
Proof.
  intro L. induction prog as [|[g|c] p IH]; cbn [calls_of count_rel map flat_map]; [reflexivity|exact IH|].
  now rewrite app_length, L, IH.
Qed.
Lemma chunks_count {A} n (l : list A) : 1 <= n -> length (chunks n l) = num_checks n (length l).
Proof.
  intro Hn.
  assert (E : forall k, nth_error (chunks n l) k = None <-> num_checks n (length l) <= k).
  { intro k. rewrite (chunks_nth n Hn). unfold num_checks. destruct (Nat.ltb_spec (k * n) (length l)) as [Lt|Ge].
    - split; [discriminate|]. destruct (length l) as [|m]; [lia|]. intro H. exfalso.
      pose proof (Nat.div_mod m n ltac:(lia)). pose proof (Nat.mod_upper_bound m n ltac:(lia)).
      assert (S (m / n) * n <= k * n) by (apply Nat.mul_le_mono_r; exact H). rewrite Nat.mul_succ_l, (Nat.mul_comm (m / n)) in H2. lia.
    - split; [intros _|reflexivity]. destruct (length l) as [|m]; [lia|].
      assert (m / n < k); [|lia]. apply Nat.div_lt_upper_bound; lia. }
  apply Nat.le_antisymm.
  - apply nth_error_None, E. lia.
  - apply E, nth_error_None. lia.
Qed.
Lemma imap_len {A B} (f : nat -> A -> B) l : length (imap f l) = length l.
Proof. unfold imap. now rewrite map_length, combine_length, seq_length, Nat.min_id. Qed.
Lemma nth_flat_blocks (f : nat -> N) n : forall a k j, k < n -> j < 128 ->
  nth (128 * k + j) (flat_map (fun i => block_bits (f i)) (seq a n)) false = N.testbit (f (a + k)) (N.of_nat j).
Proof.
  induction n as [|n IH]; intros a k j Hk Hj; [lia|]. cbn [seq flat_map].
  destruct k as [|k].
  - rewrite app_nth1 by (rewrite block_bits_length; lia). rewrite Nat.mul_0_r, Nat.add_0_l, Nat.add_0_r. unfold block_bits.
    rewrite (nth_indep _ false ((fun i => N.testbit (f a) (N.of_nat i)) 0)) by (rewrite map_length, seq_length; exact Hj).
    rewrite (map_nth (fun i => N.testbit (f a) (N.of_nat i)) (seq 0 128) 0 j), seq_nth by exact Hj. reflexivity.
  - rewrite app_nth2 by (rewrite block_bits_length; lia). rewrite block_bits_length.
    replace (128 * S k + j - 128) with (128 * k + j) by lia. rewrite IH by lia. f_equal. f_equal. lia.
Qed.
Lemma flat_blocks_len (f : nat -> N) n : forall a, length (flat_map (fun i => block_bits (f i)) (seq a n)) = 128 * n.
Proof. induction n as [|n IH]; intro a; [reflexivity|]. cbn [seq flat_map]. rewrite app_length, block_bits_length, IH. lia. Qed.

Section H.
  Variables (r0 r1 : N) (key : nat -> N) (rkey : nat -> nat -> N) (d : N) (threads csz psz : nat).
  Variables (sd : nat -> nat -> N) (rs : nat -> N) (prog : list bop).
  Hypothesis Hkey : valid_keys key.
  Hypothesis Hrkey : valid_rkeys rkey.
  Hypothesis Hd : valid_delta d.
  Hypothesis Hp : 1 <= psz.
  Hypothesis Wf : wf_prog 0 prog = true.
  Hypothesis Hok : session_ok threads csz (gates_of prog).
  Definition bh (ins u ru : list bool) (p : bprv) : Prop :=
    length u = entropy csz (gates_of prog) /\ length ru = rel_entropy psz prog /\
    bp_exec r0 r1 (mac key d u) threads csz psz sd rs (omac rkey d ru) (bwith_inputs ins prog) = Some p.
  Let F : challenger := fun k _ _ i => sd k i.
  Let nb := num_checks psz (count_rel prog).
  Definition pitems (p : pst) : list (N * N) := flat_map prv_items (map (bcall_map (wire (p_wires p))) (calls_of prog)).
  Definition vitems (v : vst) : list N := flat_map (ver_items d) (map (bcall_map (wire (v_wires v))) (calls_of prog)).
  Lemma omac_len ru k : length (omac rkey d ru k) = 128.
  Proof. unfold omac. now rewrite map_length, seq_length. Qed.
  Lemma omac_key ru k : map (ot_key d) (omac rkey d ru k) = map (rkey k) (seq 0 128).
  Proof.
    unfold omac. rewrite map_map. apply map_ext. intro j. unfold ot_key. rewrite N.lxor_spec, (Hrkey k j).
    destruct (nth (128 * k + j) ru false).
    - rewrite (proj2 Hd). cbn [xorb]. now rewrite N.lxor_assoc, N.lxor_nilpotent, N.lxor_0_r.
    - rewrite N.bits_0. cbn [xorb]. now rewrite !N.lxor_0_r.
  Qed.
  Lemma omac_lsb ru k j : j < 128 -> getLSB (nth j (omac rkey d ru k) 0%N) = nth (128 * k + j) ru false.
  Proof.
    intro Hj. unfold omac. set (f := fun j0 => N.lxor (rkey k j0) (if nth (128 * k + j0) ru false then d else 0%N)).
    rewrite (nth_indep _ 0%N (f 0)) by (rewrite map_length, seq_length; exact Hj). rewrite (map_nth f), seq_nth by exact Hj.
    unfold f, getLSB. rewrite N.lxor_spec, (Hrkey k). cbn [Nat.add]. destruct (nth (128 * k + j) ru false); [now rewrite (proj2 Hd)|reflexivity].
  Qed.
  Lemma bh_parts ins u ru p : bh ins u ru p <->
    length u = entropy csz (gates_of prog) /\ length ru = rel_entropy psz prog /\
    honest r0 r1 key d threads csz F (gates_of prog) ins u (bp_gates p) /\
    bp_poly p = pp_exec psz rs (omac rkey d ru) (map (bcall_map (wire (p_wires (bp_gates p)))) (calls_of prog)).
  Proof.
    unfold bh. rewrite (bp_exec_factor _ _ _ _ _ _ _ _ _ _ (eq_trans (wf_with ins prog 0) Wf)), gates_with, calls_with.
    unfold honest. change (challenges F (p_bits (bp_gates p)) (p_msgs (bp_gates p))) with sd.
    split; intros (L & L' & E); (split; [exact L|split; [exact L'|]]).
    - destruct (prv_exec _ _ _ _ _ _ _) as [q|]; [|discriminate]. injection E as <-. now split.
    - destruct E as [E1 E2]. rewrite E1. f_equal. destruct p as [g q]. cbn [bp_gates bp_poly] in *. now rewrite E2.
  Qed.
  Lemma pitems_len p : length (pitems p) = count_rel prog.
  Proof. apply flat_rels. intro. apply prv_items_len. Qed.
  Lemma vitems_len p : length (vitems p) = count_rel prog.
  Proof. apply flat_rels. intro. apply ver_items_len. Qed.
  Lemma bh_msgs ins u ru p : bh ins u ru p ->
    pp_msgs (bp_poly p) = imap (fun k b => prv_check_sum b (rs k) (omac rkey d ru k)) (chunks psz (pitems (bp_gates p))).
  Proof. intro B. apply bh_parts in B. destruct B as (_ & _ & _ & ->). now rewrite pp_msgs_chunks. Qed.
  Lemma bh_msgs_len ins u ru p : bh ins u ru p -> length (pp_msgs (bp_poly p)) = nb.
  Proof. intro B. rewrite (bh_msgs _ _ _ _ B), imap_len, chunks_count, pitems_len by exact Hp. reflexivity. Qed.
  Lemma bh_msg ins u ru p k : bh ins u ru p -> k < nb -> exists b, nth_error (chunks psz (pitems (bp_gates p))) k = Some b /\
    nth k (pp_msgs (bp_poly p)) (0, 0)%N = prv_check_sum b (rs k) (omac rkey d ru k).
  Proof.
    intros B Hk. destruct (nth_error (chunks psz (pitems (bp_gates p))) k) as [b|] eqn:E.
    - exists b. split; [reflexivity|]. apply nth_error_nth. rewrite (bh_msgs _ _ _ _ B).
      exact (imap_nth (fun k b => prv_check_sum b (rs k) (omac rkey d ru k)) _ _ _ E).
    - apply nth_error_None in E. rewrite chunks_count, pitems_len in E by exact Hp. fold nb in E. lia.
  Qed.
  Lemma bh_verified ins u ru p : bh ins u ru p -> all_hold (brels (bwith_inputs ins prog)) = true ->
    exists v, ver_exec r0 r1 key d threads csz sd (fun i => nth i (p_bits (bp_gates p)) false)
                (fun k => nth k (p_msgs (bp_gates p)) (0, 0)%N) (gates_of prog) = Some v /\
      forall k b, nth_error (chunks psz (vitems v)) k = Some b ->
        ver_check_sum d b (rs k) (map (rkey k) (seq 0 128)) (nth k (pp_msgs (bp_poly p)) (0, 0)%N) = true.
  Proof.
    intros (L & L' & E) Hr.
    destruct (bsess_complete r0 r1 (mac key d u) threads csz psz sd rs (omac rkey d ru) unit (fun _ _ => true) (fun _ => tt)
      (bwith_inputs ins prog) p d (fun _ => eq_refl) Hd Hp (omac_len ru) (eq_trans (wf_with ins prog 0) Wf) Hr E)
      as (w & Ew & _ & _ & Fw).
    rewrite (bv_exec_factor _ _ _ _ _ _ _ _ _ _ _ _ _ _ (eq_trans (wf_with ins prog 0) Wf)), gates_with, calls_with in Ew.
    rewrite (ver_exec_ext r0 r1 _ key) in Ew by (intro; apply (mac_key key d Hkey Hd u)).
    unfold ver_exec in Ew. rewrite ver_inputs in Ew.
    fold (ver_exec r0 r1 key d threads csz sd (fun i => nth i (p_bits (bp_gates p)) false)
                (fun k => nth k (p_msgs (bp_gates p)) (0, 0)%N) (gates_of prog)) in Ew.
    destruct (ver_exec _ _ _ _ _ _ _ _ _ _) as [v|]; [|discriminate].
    apply (f_equal (fun o => match o with Some x => x | None => w end)) in Ew. cbv beta iota in Ew. subst w.
    exists v. split; [reflexivity|]. apply finalize_both in Fw. destruct Fw as [Fw _]. cbn [bv_poly] in Fw.
    rewrite pv_cheat_nil in Fw by exact Hp. intros k b Hb. specialize (Fw k b Hb). unfold vacc in Fw. now rewrite omac_key in Fw.
  Qed.

  (** the linear part of a reply's second block *)
  Definition lin (b : list (N * N)) (seed : N) : N := gf_inn_prdt (firstn (length b) (pp_chi seed (length b))) (map snd b).
  Lemma lin_lt b seed : (lin b seed < 2 ^ 128)%N.
  Proof. apply inn_lt. Qed.
  Lemma snd_msg b seed ope : snd (prv_check_sum b seed ope) = N.lxor (lin b seed) (ch_bits ope).
  Proof. reflexivity. Qed.
  Lemma ch_lt ope : length ope = 128 -> (ch_bits ope < 2 ^ 128)%N.
  Proof. intro L. unfold ch_bits. apply mkblock_lt; apply ch_word64; lia. Qed.

  (** the bits of a session are determined by its messages *)
  Lemma bh_unique ins u ru p u' ru' p' : bh ins u ru p -> bh ins u' ru' p' -> bview p = bview p' -> u = u' /\ ru = ru' /\ p = p'.
  Proof.
    intros B B' E. injection E as E1 E2 E3 E4.
    destruct (proj1 (bh_parts _ _ _ _) B) as (L & R & Hh & Q). destruct (proj1 (bh_parts _ _ _ _) B') as (L' & R' & Hh' & Q').
    assert (U : u = u').
    { apply (proj1 (view_uniform r0 r1 key d threads csz F (gates_of prog) Hkey Hd Hok ins) u u' (bp_gates p) (bp_gates p') L L' Hh Hh').
      unfold view. now rewrite E1, E2, E3. }
    subst u'.
    assert (G : bp_gates p = bp_gates p') by exact (honest_unique r0 r1 key d threads csz F (gates_of prog) Hkey Hd Hok ins u _ _ Hh Hh').
    split; [reflexivity|].
    assert (RR : ru = ru').
    { apply (nth_ext _ _ false false); [congruence|]. intros i Hi. rewrite R in Hi. unfold rel_entropy in Hi. fold nb in Hi.
      pose proof (Nat.div_mod i 128 ltac:(lia)) as Dm. pose proof (Nat.mod_upper_bound i 128 ltac:(lia)) as Ub.
      assert (Hk : i / 128 < nb) by (apply Nat.div_lt_upper_bound; lia).
      destruct (bh_msg _ _ _ _ _ B Hk) as (b & Eb & Mb). destruct (bh_msg _ _ _ _ _ B' Hk) as (b' & Eb' & Mb').
      rewrite G, Eb' in Eb. injection Eb as <-. rewrite E4, Mb' in Mb. apply (f_equal snd) in Mb. rewrite !snd_msg in Mb.
      apply (f_equal (N.lxor (lin b' (rs (i / 128))))) in Mb. rewrite <- !N.lxor_assoc, N.lxor_nilpotent, !N.lxor_0_l in Mb.
      rewrite !ch_bits_word in Mb by apply omac_len. apply (f_equal (fun w => N.testbit w (N.of_nat (i mod 128)))) in Mb.
      rewrite !word_bit, !omac_lsb, <- Dm in Mb by exact Ub. now symmetry. }
    split; [exact RR|]. subst ru'. destruct p as [g q], p' as [g' q']. cbn [bp_gates bp_poly] in *. subst g'. now rewrite Q, Q'.
  Qed.
  (** the same messages for another witness *)
  Lemma bh_transfer ins ins' u ru p :
    bouts (bwith_inputs ins prog) = bouts (bwith_inputs ins' prog) ->
    all_hold (brels (bwith_inputs ins prog)) = true -> all_hold (brels (bwith_inputs ins' prog)) = true ->
    bh ins u ru p -> exists u' ru' p', bh ins' u' ru' p' /\ bview p' = bview p.
  Proof.
    intros Eo Hi Hi' B.
    destruct (proj1 (bh_parts _ _ _ _) B) as (L & R & Hh & Q).
    rewrite !bouts_gates, !gates_with in Eo by (rewrite wf_with; exact Wf).
    destruct (view_uniform r0 r1 key d threads csz F (gates_of prog) Hkey Hd Hok ins) as [_ V].
    destruct (view_uniform r0 r1 key d threads csz F (gates_of prog) Hkey Hd Hok ins') as [_ V'].
    assert (X : exists u' p0, length u' = entropy csz (gates_of prog) /\
       honest r0 r1 key d threads csz F (gates_of prog) ins' u' p0 /\ view p0 = view (bp_gates p)).
    { apply V'. rewrite <- Eo. apply V. now exists u, (bp_gates p). }
    destruct X as (u' & p0 & L' & Hh' & Ev).
    set (rms := pp_msgs (bp_poly p)).
    set (w := fun k => N.lxor (snd (nth k rms (0, 0)%N))
                         (match nth_error (chunks psz (pitems p0)) k with Some b => lin b (rs k) | None => 0%N end)).
    set (ru' := flat_map (fun i => block_bits (w i)) (seq 0 nb)).
    set (p' := {| bp_gates := p0; bp_poly := pp_exec psz rs (omac rkey d ru') (map (bcall_map (wire (p_wires p0))) (calls_of prog)) |}).
    assert (B' : bh ins' u' ru' p').
    { apply bh_parts. split; [exact L'|]. split; [apply flat_blocks_len|]. split; [exact Hh'|reflexivity]. }
    exists u', ru', p'. split; [exact B'|]. unfold bview. cbn [bp_gates bp_poly p']. f_equal; [exact Ev|].
    destruct (bh_verified _ _ _ _ B Hi) as (v & Exv & Av). destruct (bh_verified _ _ _ _ B' Hi') as (v' & Exv' & Av').
    assert (Evv : v' = v).
    { injection Ev as X1 X2 X3. cbn [bp_gates p'] in Exv'. rewrite X1, X2, Exv in Exv'. now injection Exv'. }
    subst v'. change (pp_msgs (bp_poly p') = rms).
    apply (nth_ext _ _ (0, 0)%N (0, 0)%N).
    { unfold rms. now rewrite (bh_msgs_len _ _ _ _ B), (bh_msgs_len _ _ _ _ B'). }
    intros k Hk. rewrite (bh_msgs_len _ _ _ _ B') in Hk.
    destruct (bh_msg _ _ _ _ _ B Hk) as (b & Eb & Mb). destruct (bh_msg _ _ _ _ _ B' Hk) as (b' & Eb' & Mb').
    cbn [bp_gates p'] in Eb'.
    assert (Sw : snd (nth k (pp_msgs (bp_poly p')) (0, 0)%N) = snd (nth k rms (0, 0)%N)).
    { rewrite Mb', snd_msg.
      assert (Lw : (w k < 2 ^ 128)%N).
      { unfold w. rewrite Eb'. apply lxor_lt; [|apply lin_lt]. unfold rms. rewrite Mb, snd_msg. apply lxor_lt; [apply lin_lt|].
        apply ch_lt, omac_len. }
      assert (Ew : ch_bits (omac rkey d ru' k) = w k).
      { apply N.bits_inj. intro j. rewrite ch_bits_word by apply omac_len. destruct (N.lt_ge_cases j 128) as [Lj|Gj].
        - rewrite <- (N2Nat.id j), word_bit, omac_lsb by lia. unfold ru'. now rewrite nth_flat_blocks by lia.
        - rewrite (testbit_high (w k) 128 j Lw Gj). apply (testbit_high _ 128 j); [|exact Gj].
          rewrite <- ch_bits_word by apply omac_len. apply ch_lt, omac_len. }
      rewrite Ew. unfold w. rewrite Eb', N.lxor_comm, N.lxor_assoc, N.lxor_nilpotent. apply N.lxor_0_r. }
    assert (Hv : exists b0, nth_error (chunks psz (vitems v)) k = Some b0).
    { destruct (nth_error (chunks psz (vitems v)) k) as [b0|] eqn:E0; [now exists b0|]. apply nth_error_None in E0.
      rewrite chunks_count, vitems_len in E0 by exact Hp. fold nb in E0. lia. }
    destruct Hv as (b0 & E0). pose proof (Av k b0 E0) as A1. pose proof (Av' k b0 E0) as A2. fold rms in A1.
    unfold ver_check_sum in A1, A2. apply N.eqb_eq in A1, A2. rewrite Sw in A2.
    rewrite (surjective_pairing (nth k (pp_msgs (bp_poly p')) (0, 0)%N)), (surjective_pairing (nth k rms (0, 0)%N)), Sw.
    f_equal. refine (eq_trans A2 (eq_sym A1)).
  Qed.
  (** different outputs are seen *)
End H.

Theorem bsess_hiding : forall r0 r1 key rkey d threads csz psz A R prog,
  valid_keys key -> valid_rkeys rkey -> valid_delta d -> 1 <= psz -> wf_prog 0 prog = true -> session_ok threads csz (gates_of prog) ->
  let H := bhonest r0 r1 key rkey d threads csz psz A R prog in
  (forall ins u ru p u' ru' p', H ins u ru p -> H ins u' ru' p' -> bview p = bview p' -> u = u' /\ ru = ru') /\
  (forall ins ins', bouts (bwith_inputs ins prog) = bouts (bwith_inputs ins' prog) ->
     all_hold (brels (bwith_inputs ins prog)) = true -> all_hold (brels (bwith_inputs ins' prog)) = true ->
     forall t, (exists u ru p, H ins u ru p /\ bview p = t) <-> (exists u ru p, H ins' u ru p /\ bview p = t)).
Proof.
  intros r0 r1 key rkey d threads csz psz A R prog Hk Hrk Hd Hp Wf Hok H. split.
  - intros ins u ru p u' ru' p' B B' E. unfold H, bhonest in B, B'. rewrite <- E in B'.
    destruct (bh_unique r0 r1 key rkey d threads csz psz (A (bview p)) (R (bview p)) prog Hk Hrk Hd Hp Wf Hok ins u ru p u' ru' p' B B' E)
      as (? & ? & _). now split.
  - assert (X : forall ins ins', bouts (bwith_inputs ins prog) = bouts (bwith_inputs ins' prog) ->
      all_hold (brels (bwith_inputs ins prog)) = true -> all_hold (brels (bwith_inputs ins' prog)) = true ->
      forall t, (exists u ru p, H ins u ru p /\ bview p = t) -> (exists u ru p, H ins' u ru p /\ bview p = t)).
    { intros ins ins' Eo Hi Hi' t (u & ru & p & B & <-).
      destruct (bh_transfer r0 r1 key rkey d threads csz psz (A (bview p)) (R (bview p)) prog Hk Hrk Hd Hp Wf Hok ins ins' u ru p Eo Hi Hi' B)
        as (u' & ru' & p' & B' & E). exists u', ru', p'. split; [|exact E]. unfold H, bhonest. rewrite E. exact B'. }
    intros ins ins' Eo Hi Hi' t. split; apply X; auto.
Qed.

(** sessions exist when every challenge depends on what was sent before it: an AND challenge on the sent bits and the earlier AND
    messages, a relation challenge on all of these and the earlier relation messages *)
Theorem bsess_hiding_defined : forall r0 r1 key rkey d threads csz psz (F : challenger) (G : nat -> view_t -> list (N * N) -> N) prog,
  1 <= psz -> wf_prog 0 prog = true -> session_ok threads csz (gates_of prog) ->
  let A := fun t : bview_t => challenges F (fst (fst (fst t))) (snd (fst (fst t))) in
  let R := fun (t : bview_t) k => G k (fst t) (firstn k (snd t)) in
  forall ins u ru, length u = entropy csz (gates_of prog) -> length ru = rel_entropy psz prog ->
  exists p, bhonest r0 r1 key rkey d threads csz psz A R prog ins u ru p.
Proof.
  intros r0 r1 key rkey d threads csz psz F G prog Hp Wf Hok A R ins u ru Lu Lr.
  destruct (honest_exists r0 r1 key d threads csz F (gates_of prog) Hok ins u) as [p0 H0].
  set (it := pitems prog p0).
  destruct (adaptive (fun ms (b : list (N * N)) => prv_check_sum b (G (length ms) (view p0) ms) (omac rkey d ru (length ms))) (chunks psz it))
    as (rms & Lm & Em).
  set (rs := fun k => G k (view p0) (firstn k rms)).
  exists {| bp_gates := p0; bp_poly := pp_exec psz rs (omac rkey d ru) (map (bcall_map (wire (p_wires p0))) (calls_of prog)) |}.
  assert (Q : pp_msgs (pp_exec psz rs (omac rkey d ru) (map (bcall_map (wire (p_wires p0))) (calls_of prog))) = rms).
  { rewrite pp_msgs_chunks by exact Hp. fold it. fold (pitems prog p0). fold it. apply nth_error_ext'. intro k.
    destruct (nth_error (chunks psz it) k) as [b|] eqn:E.
    - rewrite (imap_nth (fun k b => prv_check_sum b (rs k) (omac rkey d ru k)) _ _ _ E), (Em k b E).
      assert (Hk : k < length rms) by (rewrite Lm; apply nth_error_Some; congruence).
      rewrite firstn_length_le by lia. reflexivity.
    - apply nth_error_None in E. transitivity (@None (N * N)); [|symmetry]; apply nth_error_None; [rewrite imap_len; exact E|lia]. }
  split; [exact Lu|]. split; [exact Lr|].
  rewrite (bp_exec_factor _ _ _ _ _ _ _ _ _ _ (eq_trans (wf_with ins prog 0) Wf)), gates_with, calls_with.
  unfold bview. cbn [bp_gates bp_poly]. rewrite Q. unfold A, R. cbn [fst snd view]. unfold honest in H0. rewrite H0. reflexivity.
Qed.
