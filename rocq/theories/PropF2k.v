(** Properties C31 (multiplication proofs over GF(2^128)) and C32 (product proofs of degree 3, 4, 5). *)
From Coq Require Import NArith List Bool Arith Lia Ring.
From Verif Require Import Word WordProofs GF128 GF128Ring GF128Field GfmulModel GfmulProofs BoolModel BoolSpec BoolProofs BoolAlg F2kModel F2kSpec F2kAlg F2kProofs F2kSim F2kThms.
Import ListNotations.
Ltac Zify.zify_post_hook ::= idtac.

(** ** C31: outputs *)
(** honest prover: every element has the plain value, and the verifier holds its key *)
Theorem C31_honest_run : forall ext voleV voleM bM oM threads bufsz polysz seeds pseeds junkp junkv g1 g2 g3 g4 h1 h2 c d,
  1 <= threads -> threads <= bufsz -> (forall r i, (junkv r i < 2 ^ 128)%N) -> valid_delta d ->
  (count_mul c = 0 \/ threads <= last_batch bufsz (count_mul c)) ->
  let p := fp_exec ext voleV voleM bM oM threads bufsz polysz seeds pseeds junkp g1 g2 g3 g4 c in
  map fst (fp_w p) = fplain (fun i => fst (ext i)) 0 [] c /\
  exists v, f_session ext voleV voleM bM oM threads bufsz polysz seeds pseeds junkv
       (fun i => nth i (fp_corr p) 0%N) (fun i => nth i (fp_bits p) false)
       (fun k => nth k (fp_msgs p) (0, 0)%N) (fun k => nth k (fp_pmsgs p) (0, 0, 0, 0, 0)%N) h1 h2 c d = Some v /\
    fv_printed v = 0 /\ fv_cheat v = [] /\ fv_w v = map (key_of d) (fp_w p).
Proof.
  intros. split; [apply fp_exec_plain|]. now apply honest_run.
Qed.
(** any prover: the messages fix one value and mac per element, whatever Delta is, and the
    verifier's element is the key of exactly that pair *)
Theorem C31_outputs_bound : forall ext voleV voleM bM oM threads bufsz polysz seeds pseeds junk corr bitmsg c,
  1 <= threads -> 1 <= bufsz ->
  exists ws, map fst ws = fc_w (fcommit (fun i => fst (ext i)) voleV bM bufsz polysz corr bitmsg c) /\
  forall chkmsg polymsg g1 g2 d v, valid_delta d ->
    f_session ext voleV voleM bM oM threads bufsz polysz seeds pseeds junk corr bitmsg chkmsg polymsg g1 g2 c d = Some v ->
    fv_w v = map (key_of d) ws.
Proof. intros ext voleV voleM bM oM threads bufsz polysz seeds pseeds junk corr bitmsg c Ht Hb. now apply outputs_bound. Qed.
(** a wrong value can only come from an error that one of the checks looks at *)
Theorem C31_wrong_value_has_error : forall ev voleV bM bufsz polysz corr bitmsg c,
  let cm := fcommit ev voleV bM bufsz polysz corr bitmsg c in
  fc_w cm <> fplain ev 0 [] c ->
  (exists k es e, nth_error (fbatches cm) k = Some es /\ In e es /\ e <> 0%N) \/
  (exists k es e, nth_error (pbatches cm) k = Some es /\ In e es /\ snd e <> 0%N).
Proof.
  intros ev voleV bM bufsz polysz corr bitmsg c cm H.
  assert (D : forall (A : Type) (f : A -> N) (l : list (list A)), Forall (Forall (fun e => f e = 0%N)) l \/
     exists k es e, nth_error l k = Some es /\ In e es /\ f e <> 0%N).
  { intros A f l. induction l as [|b l [IH|[k [es [e [H1 H2]]]]]]; [now left| |right; now exists (S k), es, e].
    assert (Db : Forall (fun e => f e = 0%N) b \/ exists e, In e b /\ f e <> 0%N).
    { clear. induction b as [|e b [IH|[x [H1 H2]]]]; [now left| |right; exists x; split; [now right|exact H2]].
      destruct (N.eq_dec (f e) 0); [left; now constructor|right; exists e; split; [now left|exact n]]. }
    destruct Db as [Db|[e [H1 H2]]]; [left; now constructor|right; now exists 0, b, e]. }
  destruct (D _ (fun e => e) (fbatches cm)) as [H1|H1]; [|now left].
  destruct (D _ snd (pbatches cm)) as [H2|H2]; [|now right].
  exfalso. apply H. now apply no_error_plain.
Qed.
(** ** C31: soundness of the deferred check *)
Theorem C31_mul_soundness : forall ext voleV voleM bM oM threads bufsz polysz seeds pseeds junk corr bitmsg c chkmsg polymsg g1 g2 k es ds,
  1 <= threads -> 1 <= bufsz ->
  nth_error (fbatches (fcommit (fun i => fst (ext i)) voleV bM bufsz polysz corr bitmsg c)) k = Some es ->
  fcombined (f_ranges threads (length es)) (seeds k) es <> 0%N -> NoDup ds ->
  (forall d, In d ds -> valid_delta d /\ exists v,
     f_session ext voleV voleM bM oM threads bufsz polysz seeds pseeds junk corr bitmsg chkmsg polymsg g1 g2 c d = Some v /\
     fv_printed v = 0) ->
  length ds <= 2.
Proof. intros ext voleV voleM bM oM threads bufsz polysz seeds pseeds junk corr bitmsg c chkmsg polymsg g1 g2 k es ds Ht Hb. now apply mul_sound. Qed.
Theorem C31_challenge_bound : forall t es, 1 <= t -> t <= length es -> length es mod t < length es / t ->
  Forall (fun e => (e < 2 ^ 128)%N) es -> (exists e, In e es /\ e <> 0%N) ->
  exists k, k < t /\ forall (seed : nat -> N) xs, NoDup xs -> Forall (fun x => (x < 2 ^ 128)%N) xs ->
    (forall x, In x xs -> fcombined (f_ranges t (length es)) (fun j => if Nat.eqb j k then x else seed j) es = 0%N) ->
    length xs <= length es.
Proof. exact fcombined_seeds. Qed.
Theorem C31_challenge_bound_one_thread : forall es xs,
  Forall (fun e => (e < 2 ^ 128)%N) es -> (exists e, In e es /\ e <> 0%N) ->
  NoDup xs -> Forall (fun x => (x < 2 ^ 128)%N) xs ->
  (forall x, In x xs -> fcombined (f_ranges 1 (length es)) (fun _ => x) es = 0%N) -> length xs <= length es.
Proof.
  intros es xs Hl He Hnd Hlt Hz. apply weighted_seeds; auto. intros x Hx. specialize (Hz x Hx).
  rewrite f_ranges_one in Hz by (destruct He as [e [Hin _]]; destruct es; [destruct Hin|cbn; lia]).
  unfold fcombined in Hz. cbn [length seq combine map fst snd fold_right] in Hz.
  now rewrite skipn_O, firstn_all, N.lxor_0_r in Hz.
Qed.
(** conversely, whenever the combinations vanish, fixed messages pass for every key *)
Theorem C31_vanishing_combination_passes : forall ext voleV voleM bM oM threads bufsz polysz seeds pseeds junk corr bitmsg c,
  1 <= threads -> 1 <= bufsz -> (forall r i, (junk r i < 2 ^ 128)%N) ->
  let cm := fcommit (fun i => fst (ext i)) voleV bM bufsz polysz corr bitmsg c in
  (forall k es, nth_error (fbatches cm) k = Some es -> fcombined (f_ranges threads (length es)) (seeds k) es = 0%N) ->
  (forall k es, nth_error (pbatches cm) k = Some es -> weighted (pseeds k) (deg_errs 5 es) = 0%N) ->
  exists chkmsg polymsg, forall g1 g2 d, valid_delta d ->
    exists v, f_session ext voleV voleM bM oM threads bufsz polysz seeds pseeds junk corr bitmsg chkmsg polymsg g1 g2 c d = Some v /\
      fv_printed v = 0 /\ fv_cheat v = [].
Proof.
  intros ext voleV voleM bM oM threads bufsz polysz seeds pseeds junk corr bitmsg c Ht Hb Hj cm H1 H2.
  destruct (vanishing ext voleV voleM bM oM threads bufsz polysz seeds pseeds junk corr bitmsg Ht Hb c Hj H1 H2) as (chk & pm & _ & _ & H). eauto.
Qed.
(** ** C31: what goes wrong *)
(** with two workers and three multiplications the third one is not checked *)
Theorem C31_unchecked_multiplication_refuted :
  exists c, forall ext voleV voleM bM oM bufsz polysz seeds pseeds junk bitmsg, 3 <= bufsz ->
  (forall r i, (junk r i < 2 ^ 128)%N) ->
  exists corr chkmsg polymsg,
    fc_w (fcommit (fun i => fst (ext i)) voleV bM bufsz polysz corr bitmsg c) <> fplain (fun i => fst (ext i)) 0 [] c /\
    forall g1 g2 d, valid_delta d ->
    exists v, f_session ext voleV voleM bM oM 2 bufsz polysz seeds pseeds junk corr bitmsg chkmsg polymsg g1 g2 c d = Some v /\
      fv_printed v = 0 /\ fv_cheat v = [].
Proof.
  exists [FExt; FMul 0 0; FMul 0 0; FMul 0 0]. intros ext voleV voleM bM oM bufsz polysz seeds pseeds junk bitmsg Hb Hj.
  set (x := fst (ext 0)).
  set (corr := fun i => N.lxor (voleV 0 i) (N.lxor (gfmul x x) (match i with 2 => 1%N | _ => 0%N end))).
  assert (E : forall a b, N.lxor a (N.lxor a b) = b) by (intros; now rewrite <- N.lxor_assoc, N.lxor_nilpotent, N.lxor_0_l).
  set (cm := fcommit (fun i => fst (ext i)) voleV bM bufsz polysz corr bitmsg [FExt; FMul 0 0; FMul 0 0; FMul 0 0]).
  assert (W : fc_w cm = [x; gfmul x x; gfmul x x; N.lxor (gfmul x x) 1] /\ fbatches cm = [[0; 0; 1]%N] /\ pbatches cm = []).
  { unfold cm, fcommit. cbn [fold_left fc_step fc_init fc_add fc_w fc_ext app]. unfold fc_add, fc_init, fval.
    cbn [fc_w fc_ext fc_corr fc_bits fc_errs fc_done fc_perrs fc_pdone app nth]. fold x.
    rewrite (fc_mul_build _ _ _ _ _ _ _ _ _ _ _ _ 0%N) by (cbn [length]; first [lia|reflexivity]). cbn [fc_w app nth].
    rewrite (fc_mul_build _ _ _ _ _ _ _ _ _ _ _ _ 0%N) by (cbn [length app]; first [lia|reflexivity]). cbn [fc_w app nth].
    rewrite (fc_mul_build _ _ _ _ _ _ _ _ _ _ _ _ 1%N) by (cbn [length app]; first [lia|reflexivity]). cbn [fc_w app nth].
    rewrite !N.lxor_0_r. auto. }
  destruct W as (W1 & W2 & W3).
  destruct (C31_vanishing_combination_passes ext voleV voleM bM oM 2 bufsz polysz seeds pseeds junk corr bitmsg
     [FExt; FMul 0 0; FMul 0 0; FMul 0 0]) as [chk [pm H]]; auto; try lia.
  - fold cm. rewrite W2. intros [|k] es Hk; [|destruct k; discriminate]. injection Hk as <-.
    unfold fcombined, f_ranges, weighted. cbn. now rewrite !gfmul_0_r.
  - fold cm. rewrite W3. intros [|k] es Hk; discriminate.
  - exists corr, chk, pm. split; [|exact H]. fold cm. rewrite W1. cbn [fplain]. unfold fval. cbn [app nth]. fold x.
    intro F. injection F as F. apply (f_equal (N.lxor (gfmul x x))) in F. rewrite E, N.lxor_nilpotent in F. discriminate.
Qed.
(** the challenge does not depend on the corrections (C16_payloads_not_bound), so corrections may be
    chosen after it: then two wrong products cancel, for every key, and the second product is
    whatever the prover claims *)
Theorem C31_unbound_corrections_refuted :
  exists c, (forall x, fplain x 0 [] c = [x 0; gfmul (x 0) (x 0); gfmul (x 0) (x 0)]) /\
  forall ext voleV voleM bM oM bufsz polysz seeds pseeds junk bitmsg w, 2 <= bufsz ->
  (forall r i, (junk r i < 2 ^ 128)%N) ->
  exists corr chkmsg polymsg,
    (exists u, fc_w (fcommit (fun i => fst (ext i)) voleV bM bufsz polysz corr bitmsg c) = [fst (ext 0); u; w]) /\
    forall g1 g2 d, valid_delta d ->
    exists v, f_session ext voleV voleM bM oM 1 bufsz polysz seeds pseeds junk corr bitmsg chkmsg polymsg g1 g2 c d = Some v /\
      fv_printed v = 0 /\ fv_cheat v = [].
Proof.
  exists late_c. split; [reflexivity|]. intros ext voleV voleM bM oM bufsz polysz seeds pseeds junk bitmsg w Hb Hj.
  set (corr := late_corr (fst (ext 0)) voleV (seeds 0 0) w).
  destruct (late_commit ext voleV bM bufsz polysz seeds bitmsg w Hb) as (W1 & W2 & W3).
  destruct (vanishing ext voleV voleM bM oM 1 bufsz polysz seeds pseeds junk corr bitmsg (le_n 1) ltac:(lia) late_c Hj W2) as (chk & pm & _ & _ & H).
  { unfold corr. rewrite W3. intros [|k] es Hk; discriminate. }
  exists corr, chk, pm. split; [exact W1|exact H].
Qed.
(** a failing check is only printed: the session is never stopped by it and the cheat record stays
    empty, whatever the prover sends *)
Theorem C31_failure_only_printed : forall ext voleV voleM bM oM threads bufsz polysz seeds pseeds junk corr bitmsg c polymsg g1 g2 d,
  1 <= threads -> 1 <= bufsz -> valid_delta d ->
  let run chk := f_session ext voleV voleM bM oM threads bufsz polysz seeds pseeds junk corr bitmsg chk polymsg g1 g2 c d in
  (forall chk v, run chk = Some v -> fv_cheat v = []) /\
  (forall chk chk', run chk = None <-> run chk' = None) /\
  (pbatches (fcommit (fun i => fst (ext i)) voleV bM bufsz polysz corr bitmsg c) = [] -> forall chk, run chk <> None).
Proof.
  intros ext voleV voleM bM oM threads bufsz polysz seeds pseeds junk corr bitmsg c polymsg g1 g2 d Ht Hb Vd run. split; [|split].
  - intros chk v E. exact (never_flagged ext voleV voleM bM oM threads bufsz polysz seeds pseeds junk corr bitmsg Ht Hb c chk polymsg g1 g2 d v Vd E).
  - intros chk chk'. exact (stop_independent ext voleV voleM bM oM threads bufsz polysz seeds pseeds junk corr bitmsg Ht Hb c chk chk' polymsg g1 g2 d Vd).
  - intros Hp chk. exact (no_poly_no_stop ext voleV voleM bM oM threads bufsz polysz seeds pseeds junk corr bitmsg Ht Hb c chk polymsg g1 g2 d Vd Hp).
Qed.

(** example values *)
Definition fdemo_ext (i : nat) : fwire := (N.of_nat (i * i + 5), N.of_nat (1000 * i + 77)).
Definition fdemo_V (r i : nat) : N := N.of_nat (31 * r + 7 * i + 1).
Definition fdemo_M (r i : nat) : N := (0x1234567890ABCDEF00112233 * N.of_nat (r + 2 * i + 1))%N.
Definition fdemo_b (i : nat) : N := N.of_nat (i * 13 + 3).
Definition fdemo_s (k i : nat) : N := N.of_nat (99 * k + i + 4).
Definition fdemo_d : N := 0xABCDEF0123456789ABCDEF0123456789.
Definition fdemo_c : list fgate :=
  [FExt; FExt; FMul 0 1; FAddC 2 0xFF; FMul 3 2; FMul 4 4; FMul3 0 1 3; FMul4 0 1 2 5; FMul5 1 2 3 4 6; FMul 7 8].
Definition fzero (i : nat) : N := 0%N.
Definition fdemo_p (t : nat) (c : list fgate) (junkp : nat -> nat -> N * N) :=
  fp_exec fdemo_ext fdemo_V fdemo_M fdemo_b fdemo_b t 2 2 fdemo_s (fdemo_s 9) junkp fzero fzero fzero fzero c.
Definition fdemo_v (t : nat) (c : list fgate) (junkp : nat -> nat -> N * N) :=
  let p := fdemo_p t c junkp in
  f_session fdemo_ext fdemo_V fdemo_M fdemo_b fdemo_b t 2 2 fdemo_s (fdemo_s 9) (fun _ _ => 0%N)
       (fun i => nth i (fp_corr p) 0%N) (fun i => nth i (fp_bits p) false)
       (fun k => nth k (fp_msgs p) (0, 0)%N) (fun k => nth k (fp_pmsgs p) (0, 0, 0, 0, 0)%N) fzero fzero c fdemo_d.
Definition printed_and_len (o : option fvst) : option (nat * nat * nat) :=
  match o with Some v => Some (fv_printed v, length (fv_w v), length (fv_cheat v)) | None => None end.
Example C31_example :
  count_mul fdemo_c = 4 /\ length (fp_msgs (fdemo_p 1 fdemo_c (fun _ _ => (0, 0)%N))) = 2 /\
  length (fp_pmsgs (fdemo_p 1 fdemo_c (fun _ _ => (0, 0)%N))) = 2 /\ valid_delta fdemo_d /\
  printed_and_len (fdemo_v 1 fdemo_c (fun _ _ => (0, 0)%N)) = Some (0, 10, 0).
Proof. vm_compute. auto 10. Qed.
(** two workers, one multiplication: the first worker leaves its part of sum[] uninitialised, and an
    honest run can be reported as failing *)
Theorem C31_small_batch_refuted : exists ext voleV voleM bM oM bufsz polysz seeds pseeds junkp c d,
  2 <= bufsz /\ valid_delta d /\
  let p := fp_exec ext voleV voleM bM oM 2 bufsz polysz seeds pseeds junkp fzero fzero fzero fzero c in
  option_map fv_printed (f_session ext voleV voleM bM oM 2 bufsz polysz seeds pseeds (fun _ _ => 0%N)
       (fun i => nth i (fp_corr p) 0%N) (fun i => nth i (fp_bits p) false)
       (fun k => nth k (fp_msgs p) (0, 0)%N) (fun k => nth k (fp_pmsgs p) (0, 0, 0, 0, 0)%N) fzero fzero c d) = Some 1.
Proof.
  exists fdemo_ext, fdemo_V, fdemo_M, fdemo_b, fdemo_b, 2, 2, fdemo_s, (fdemo_s 9), (fun _ _ => (1, 0)%N), [FExt; FMul 0 0], fdemo_d.
  split; [lia|]. split; [split; [reflexivity|reflexivity]|]. vm_compute. reflexivity.
Qed.
(** a wrong correction is noticed (printed) *)
Example C31_example_wrong :
  let p := fdemo_p 1 [FExt; FMul 0 0] (fun _ _ => (0, 0)%N) in
  fbatches (fcommit (fun i => fst (fdemo_ext i)) fdemo_V fdemo_b 2 2 (fun i => N.lxor (nth i (fp_corr p) 0%N) 1) (fun _ => false) [FExt; FMul 0 0]) = [[1%N]] /\
  printed_and_len (f_session fdemo_ext fdemo_V fdemo_M fdemo_b fdemo_b 1 2 2 fdemo_s (fdemo_s 9) (fun _ _ => 0%N)
       (fun i => N.lxor (nth i (fp_corr p) 0%N) 1) (fun i => false)
       (fun k => nth k (fp_msgs p) (0, 0)%N) (fun k => (0, 0, 0, 0, 0)%N) fzero fzero [FExt; FMul 0 0] fdemo_d) = Some (1, 2, 0).
Proof. vm_compute. auto. Qed.

(** ** C32: product proofs.  [a], [b], .. are (value, mac) pairs, [key_of d a] the verifier's keys. *)
Ltac row_lt := repeat (apply lxor_lt; [|apply gfmul_lt]);
  unfold prv_poly3, prv_poly4, prv_poly5; cbv zeta; cbn [r0]; rewrite !gfmul_1_ok; cbn [combine map at_ nth fst snd]; apply gfmul_lt.
Theorem C32_coefficients3 : forall d a b c o,
  let r := prv_poly3 (fst a) (snd a) (fst b) (snd b) (fst c) (snd c) (snd o) in
  let D2 := gfmul d d in let D3 := gfmul D2 d in
  ver_poly3 d (key_of d a) (key_of d b) (key_of d c) (key_of d o) =
  N.lxor (N.lxor (N.lxor (r0 r) (gfmul (r1 r) d)) (gfmul (r2 r) D2))
              (gfmul (N.lxor (prod3 (fst a) (fst b) (fst c)) (fst o)) D3) /\ r3 r = 0%N /\ r4 r = 0%N.
Proof.
  intros d a b c o r D2 D3. split; [|split; reflexivity]. apply toG_inj; [apply lxor_lt; apply gfmul_lt|unfold r; row_lt|].
  pose proof (v_row_decomp d ([a; b; c], o) (or_introl eq_refl)) as H. cbv zeta in H.
  unfold v_row, p_row, dg, p_deg, p_err in H. cbn [fst snd length Nat.eqb] in H. fold r in H. rewrite H.
  unfold D3, D2. rewrite !toG_lxor, !toG_gfmul, !toG_lxor. change (r3 r) with 0%N. change (r4 r) with 0%N. rewrite toG_0. ring.
Qed.
Theorem C32_coefficients4 : forall d a b c e o,
  let r := prv_poly4 (fst a) (snd a) (fst b) (snd b) (fst c) (snd c) (fst e) (snd e) (snd o) in
  let D2 := gfmul d d in let D3 := gfmul D2 d in let D4 := gfmul D3 d in
  ver_poly4 d (key_of d a) (key_of d b) (key_of d c) (key_of d e) (key_of d o) =
  N.lxor (N.lxor (N.lxor (N.lxor (r0 r) (gfmul (r1 r) d)) (gfmul (r2 r) D2)) (gfmul (r3 r) D3))
              (gfmul (N.lxor (prod4 (fst a) (fst b) (fst c) (fst e)) (fst o)) D4) /\ r4 r = 0%N.
Proof.
  intros d a b c e o r D2 D3 D4. split; [|reflexivity]. apply toG_inj; [apply lxor_lt; apply gfmul_lt|unfold r; row_lt|].
  pose proof (v_row_decomp d ([a; b; c; e], o) (or_intror (or_introl eq_refl))) as H. cbv zeta in H.
  unfold v_row, p_row, dg, p_deg, p_err in H. cbn [fst snd length Nat.eqb] in H. fold r in H. rewrite H.
  unfold D4, D3, D2. rewrite !toG_lxor, !toG_gfmul, !toG_lxor. change (r4 r) with 0%N. rewrite toG_0. ring.
Qed.
Theorem C32_coefficients5 : forall d a b c e f o,
  let r := prv_poly5 (fst a) (snd a) (fst b) (snd b) (fst c) (snd c) (fst e) (snd e) (fst f) (snd f) (snd o) in
  let D2 := gfmul d d in let D3 := gfmul D2 d in let D4 := gfmul D3 d in let D5 := gfmul D4 d in
  ver_poly5 d (key_of d a) (key_of d b) (key_of d c) (key_of d e) (key_of d f) (key_of d o) =
  N.lxor (N.lxor (N.lxor (N.lxor (N.lxor (r0 r) (gfmul (r1 r) d)) (gfmul (r2 r) D2)) (gfmul (r3 r) D3)) (gfmul (r4 r) D4))
              (gfmul (N.lxor (prod5 (fst a) (fst b) (fst c) (fst e) (fst f)) (fst o)) D5).
Proof.
  intros d a b c e f o r D2 D3 D4 D5. apply toG_inj; [apply lxor_lt; apply gfmul_lt|unfold r; row_lt|].
  pose proof (v_row_decomp d ([a; b; c; e; f], o) (or_intror (or_intror eq_refl))) as H. cbv zeta in H.
  unfold v_row, p_row, dg, p_deg, p_err in H. cbn [fst snd length Nat.eqb] in H. fold r in H. rewrite H.
  unfold D5, D4, D3, D2. rewrite !toG_lxor, !toG_gfmul, !toG_lxor. ring.
Qed.
(** degree 5: a wrong product in a batch survives for at most five keys, unless the challenge is
    one of the few that combine the errors to zero *)
Theorem C32_degree5_soundness : forall ext voleV voleM bM oM threads bufsz polysz seeds pseeds junk corr bitmsg c chkmsg polymsg g1 g2 k es ds,
  1 <= threads -> 1 <= bufsz ->
  nth_error (pbatches (fcommit (fun i => fst (ext i)) voleV bM bufsz polysz corr bitmsg c)) k = Some es ->
  weighted (pseeds k) (deg_errs 5 es) <> 0%N -> (r0 (polymsg k) < 2 ^ 128)%N -> NoDup ds ->
  (forall d, In d ds -> valid_delta d /\ exists v,
     f_session ext voleV voleM bM oM threads bufsz polysz seeds pseeds junk corr bitmsg chkmsg polymsg g1 g2 c d = Some v) ->
  length ds <= 5.
Proof. intros ext voleV voleM bM oM threads bufsz polysz seeds pseeds junk corr bitmsg c chkmsg polymsg g1 g2 k es ds Ht Hb. now apply poly_sound. Qed.
Theorem C32_challenge_bound : forall es xs,
  Forall (fun e => (e < 2 ^ 128)%N) es -> (exists e, In e es /\ e <> 0%N) -> NoDup xs -> Forall (fun x => (x < 2 ^ 128)%N) xs ->
  (forall x, In x xs -> weighted x es = 0%N) -> length xs <= length es.
Proof. exact weighted_seeds. Qed.
(** degrees 3 and 4: the prover also supplies the coefficients of Delta^3 and Delta^4 of the batch sum,
    so a wrong product of three or four factors is accepted for every key: any claimed value passes *)
Lemma claim_bits bM w : (w < 2 ^ 128)%N -> exists bitmsg, fc_bitval bM bitmsg 0 = w.
Proof.
  intro H. exists (fun i => xorb (N.testbit (bM i) 0) (nth i (in_bits w) false)). unfold fc_bitval.
  etransitivity; [|exact (used_in_bits w H)]. f_equal.
  change (seq 0 64 ++ seq (0 + 65) 64) with (used (seq 0 130)). rewrite <- used_map. f_equal.
  transitivity (map (fun i => nth i (in_bits w) false) (seq 0 130)).
  - apply map_ext. intro i. now rewrite <- xorb_assoc, xorb_nilpotent, xorb_false_l.
  - rewrite <- (in_bits_length w). symmetry. apply prefix_nth.
Qed.
Theorem C32_degree3_refuted : exists c, forall ext voleV voleM bM oM threads bufsz polysz seeds pseeds junk corr w,
  1 <= threads -> 1 <= bufsz -> (w < 2 ^ 128)%N -> (forall r i, (junk r i < 2 ^ 128)%N) ->
  let x i := fst (ext i) in
  fplain x 0 [] c = [x 0; x 1; x 2; prod3 (x 0) (x 1) (x 2)] /\
  exists bitmsg chkmsg polymsg, fc_w (fcommit x voleV bM bufsz polysz corr bitmsg c) = [x 0; x 1; x 2; w] /\
    forall g1 g2 d, valid_delta d -> exists v,
      f_session ext voleV voleM bM oM threads bufsz polysz seeds pseeds junk corr bitmsg chkmsg polymsg g1 g2 c d = Some v /\
      fv_printed v = 0 /\ fv_cheat v = [].
Proof.
  set (c := [FExt; FExt; FExt; FMul3 0 1 2]). exists c.
  intros ext voleV voleM bM oM threads bufsz polysz seeds pseeds junk corr w Ht Hb Hw Hj x. split; [reflexivity|].
  destruct (claim_bits bM w Hw) as [bm Hbm].
  set (cm := fcommit x voleV bM bufsz polysz corr bm c).
  assert (W : fc_w cm = [x 0; x 1; x 2; w] /\ fbatches cm = [] /\
              pbatches cm = [[(3, N.lxor (prod3 (x 0) (x 1) (x 2)) w)]]).
  { unfold cm, fcommit, c. cbn [fold_left fc_step fc_init fc_add fc_w fc_ext app fc_errs fc_done fc_perrs fc_pdone fc_bits fc_corr Nat.add].
    unfold fc_chain, fc_add, fc_init. cbn [fc_w fc_ext app fc_errs fc_done fc_perrs fc_pdone fc_bits fc_corr]. rewrite ?Nat.add_0_r, Hbm.
    cbn [length Nat.eqb negb]. rewrite andb_false_r. unfold fval. cbn [nth app]. auto. }
  destruct W as (W1 & W2 & W3).
  destruct (C31_vanishing_combination_passes ext voleV voleM bM oM threads bufsz polysz seeds pseeds junk corr bm c) as [chk [pm H]]; auto.
  - fold x. fold cm. rewrite W2. intros [|k] es Hk; discriminate.
  - fold x. fold cm. rewrite W3. intros [|k] es Hk; [|destruct k; discriminate]. injection Hk as <-.
    unfold weighted, deg_errs. cbn [map fst snd Nat.eqb length gf_coeff_gen gf_powers_from combine fold_right]. now rewrite gfmul_0_r.
  - exists bm, chk, pm. split; [exact W1|exact H].
Qed.
Theorem C32_degree4_refuted : exists c, forall ext voleV voleM bM oM threads bufsz polysz seeds pseeds junk corr w,
  1 <= threads -> 1 <= bufsz -> (w < 2 ^ 128)%N -> (forall r i, (junk r i < 2 ^ 128)%N) ->
  let x i := fst (ext i) in
  fplain x 0 [] c = [x 0; x 1; x 2; x 3; prod4 (x 0) (x 1) (x 2) (x 3)] /\
  exists bitmsg chkmsg polymsg, fc_w (fcommit x voleV bM bufsz polysz corr bitmsg c) = [x 0; x 1; x 2; x 3; w] /\
    forall g1 g2 d, valid_delta d -> exists v,
      f_session ext voleV voleM bM oM threads bufsz polysz seeds pseeds junk corr bitmsg chkmsg polymsg g1 g2 c d = Some v /\
      fv_printed v = 0 /\ fv_cheat v = [].
Proof.
  set (c := [FExt; FExt; FExt; FExt; FMul4 0 1 2 3]). exists c.
  intros ext voleV voleM bM oM threads bufsz polysz seeds pseeds junk corr w Ht Hb Hw Hj x. split; [reflexivity|].
  destruct (claim_bits bM w Hw) as [bm Hbm].
  set (cm := fcommit x voleV bM bufsz polysz corr bm c).
  assert (W : fc_w cm = [x 0; x 1; x 2; x 3; w] /\ fbatches cm = [] /\
              pbatches cm = [[(4, N.lxor (prod4 (x 0) (x 1) (x 2) (x 3)) w)]]).
  { unfold cm, fcommit, c. cbn [fold_left fc_step fc_init fc_add fc_w fc_ext app fc_errs fc_done fc_perrs fc_pdone fc_bits fc_corr Nat.add].
    unfold fc_chain, fc_add, fc_init. cbn [fc_w fc_ext app fc_errs fc_done fc_perrs fc_pdone fc_bits fc_corr]. rewrite ?Nat.add_0_r, Hbm.
    cbn [length Nat.eqb negb]. rewrite andb_false_r. unfold fval. cbn [nth app]. auto. }
  destruct W as (W1 & W2 & W3).
  destruct (C31_vanishing_combination_passes ext voleV voleM bM oM threads bufsz polysz seeds pseeds junk corr bm c) as [chk [pm H]]; auto.
  - fold x. fold cm. rewrite W2. intros [|k] es Hk; discriminate.
  - fold x. fold cm. rewrite W3. intros [|k] es Hk; [|destruct k; discriminate]. injection Hk as <-.
    unfold weighted, deg_errs. cbn [map fst snd Nat.eqb length gf_coeff_gen gf_powers_from combine fold_right]. now rewrite gfmul_0_r.
  - exists bm, chk, pm. split; [exact W1|exact H].
Qed.
(** a wrong product of five factors stops the verifier *)
Example C32_example :
  let c := [FExt; FExt; FMul5 0 1 0 1 0] in let p := fdemo_p 1 c (fun _ _ => (0, 0)%N) in
  let bm i := xorb (nth i (fp_bits p) false) (Nat.eqb i 3) in
  pbatches (fcommit (fun i => fst (fdemo_ext i)) fdemo_V fdemo_b 2 2 (fun _ => 0%N) bm c) = [[(5, 8%N)]] /\
  f_session fdemo_ext fdemo_V fdemo_M fdemo_b fdemo_b 1 2 2 fdemo_s (fdemo_s 9) (fun _ _ => 0%N)
       (fun _ => 0%N) bm (fun _ => (0, 0)%N) (fun k => nth k (fp_pmsgs p) (0, 0, 0, 0, 0)%N) fzero fzero c fdemo_d = None.
Proof. vm_compute. auto. Qed.

Print Assumptions C31_honest_run.
Print Assumptions C31_outputs_bound.
Print Assumptions C31_wrong_value_has_error.
Print Assumptions C31_mul_soundness.
Print Assumptions C31_challenge_bound.
Print Assumptions C31_challenge_bound_one_thread.
Print Assumptions C31_vanishing_combination_passes.
Print Assumptions C31_unchecked_multiplication_refuted.
Print Assumptions C31_unbound_corrections_refuted.
Print Assumptions C31_failure_only_printed.
Print Assumptions C31_small_batch_refuted.
Print Assumptions C32_coefficients3.
Print Assumptions C32_coefficients4.
Print Assumptions C32_coefficients5.
Print Assumptions C32_degree5_soundness.
Print Assumptions C32_challenge_bound.
Print Assumptions C32_degree3_refuted.
Print Assumptions C32_degree4_refuted.
