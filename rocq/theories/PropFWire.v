(** Property C54: the GF(2^128) engine over the real channel, all interleavings. *)
From Coq Require Import NArith List Bool Arith Lia.
From Verif Require Import Word WordProofs GF128 GF128Ring BoolModel BoolSpec BoolIOModel BoolIOSpec F2kModel F2kSpec F2kAlg F2kThms WireModel WireNet WireProofs WireAny.
From Verif Require Import FWireModel FWireProofs FWireFollow FWirePrv FWireThms FWireAny.
From Verif Require PropF2k PropWire PropAWire.
Import ListNotations.

(** the verifier's program for key [d]; the prover holds [ext], the VOLE values and the COT messages *)
Definition fver ext voleV voleM bM oM threads bufsz polysz junk G Gp h1 h2 c (d : N) : proc (option fvst) :=
  fver_prog (fun i => key_of d (ext i)) (fun r i => key_of d (voleV r i, voleM r i)) (cot_key bM d) (cot_key oM d) d
    threads bufsz polysz junk G Gp (fv_init (fun r i => key_of d (voleV r i, voleM r i)) h1 h2) c.

(** ** honest parties: no interleaving gets stuck, every run is finite, and every complete run leaves the prover with the
    plain values, the verifier with their keys and no complaint, and both channels empty *)
Theorem C54_honest_session : forall bs br reset NB gs gr ext voleV voleM bM oM threads bufsz polysz G Gp junkp junkv g1 g2 g3 g4 h1 h2 c d,
  1 <= NB -> length gs = NB -> 1 <= threads -> threads <= bufsz -> valid_delta d ->
  (forall r i, (voleV r i < 2 ^ 128)%N) -> (forall r i, (fst (junkp r i) < 2 ^ 128 /\ snd (junkp r i) < 2 ^ 128)%N) -> (forall r i, (junkv r i < 2 ^ 128)%N) ->
  count_mul c = 0 \/ threads <= last_batch bufsz (count_mul c) ->
  exists (bound : nat) (p : fpst) (v : fvst), forall k n,
    nsteps bs br reset NB k (n_init NB gs gr (fprv_prog ext voleV voleM bM oM threads bufsz polysz junkp G Gp (fp_init voleV voleM g1 g2 g3 g4) c)
                              (fver ext voleV voleM bM oM threads bufsz polysz junkv G Gp h1 h2 c d)) n ->
    k <= bound /\
    ((exists n', nstep bs br reset NB n n') \/
     (n_p n = PDone p /\ n_v n = PDone (Some v) /\ n_sr n = [] /\ n_rs n = [])) /\
    map fst (fp_w p) = fplain (fun i => fst (ext i)) 0 [] c /\ fv_printed v = 0 /\ fv_cheat v = [] /\ fv_w v = map (key_of d) (fp_w p).
Proof.
  intros bs br reset NB gs gr ext voleV voleM bM oM threads bufsz polysz G Gp junkp junkv g1 g2 g3 g4 h1 h2 c d HNB Hgs Ht Hb Vd HV HJ HJv Hc.
  apply honest_net; auto. lia.
Qed.

(** ** any prover program: the verifier's result is the one of the message-level session on exactly what its endpoint has
    read: corrections are the messages of 16 bytes, check pairs those of 32, product sums those of 80, and every challenge
    is taken from the digest that precedes its message.  [None] is a verifier stopped by error *)
Definition session_read extk voleK bK oK d threads bufsz polysz junk (G : list N -> nat -> N) (Gp : list N -> N) h1 h2 c (e : ep) : option fvst :=
  let datas := read_data (e_reads e) in
  fv_exec extk voleK bK oK d threads bufsz polysz
    (fun k => G (nth k (digs 32 datas (e_digests e)) [])) (fun k => Gp (nth k (digs 80 datas (e_digests e)) [])) junk
    (fun i => dec_bytes (nth i (of_len 16 datas) [])) (fun i => nth i (read_bits (e_reads e)) false)
    (fun k => dec2 (nth k (of_len 32 datas) [])) (fun k => dec5 (nth k (of_len 80 datas) [])) h1 h2 c.
Theorem C54_result_from_transcript : forall bs br reset NB gs gr extk voleK bK oK d threads bufsz polysz junk G Gp h1 h2 (RP : Type) (P : proc RP) c k n r,
  1 <= bufsz ->
  nsteps bs br reset NB k (n_init NB gs gr P (fver_prog extk voleK bK oK d threads bufsz polysz junk G Gp (fv_init voleK h1 h2) c)) n ->
  n_v n = PDone r ->
  session_read extk voleK bK oK d threads bufsz polysz junk G Gp h1 h2 c (n_r n) = r.
Proof.
  intros bs br reset NB gs gr extk voleK bK oK d threads bufsz polysz junk G Gp h1 h2 RP P c k n r Hb Hn Hv.
  pose proof (eat_done bs br reset NB gs gr P _ k n _ Hn Hv) as E.
  eapply (feat_ver extk voleK bK oK d threads bufsz polysz junk G Gp Hb) in E; [exact E|]. repeat split.
Qed.

(** ** the verifier sends nothing, and its key decides only whether it stops: two runs against one prover program go
    through the same states of everything else until one of the verifiers is stopped by a failing product check *)
Theorem C54_key_only_decides_stop : forall bs br reset NB gs gr extk extk' voleK voleK' bK bK' oK oK' d d' threads bufsz polysz junk G Gp h1 h2 h1' h2' (RP : Type) (P : proc RP) c k n,
  1 <= bufsz ->
  let V := fver_prog extk voleK bK oK d threads bufsz polysz junk G Gp (fv_init voleK h1 h2) c in
  let V' := fver_prog extk' voleK' bK' oK' d' threads bufsz polysz junk G Gp (fv_init voleK' h1' h2') c in
  nsteps bs br reset NB k (n_init NB gs gr P V) n ->
  n_rs n = [] /\
  exists j n1 n1', j <= k /\ nsteps bs br reset NB j (n_init NB gs gr P V) n1 /\ nsteps bs br reset NB j (n_init NB gs gr P V') n1' /\
    n_p n1' = n_p n1 /\ n_s n1' = n_s n1 /\ n_r n1' = n_r n1 /\ n_sr n1' = n_sr n1 /\ n_rs n1' = n_rs n1 /\
    ((j = k /\ n1 = n /\ ((exists v, n_v n = PDone (Some v)) -> exists r, n_v n1' = PDone r)) \/ n_v n1 = PDone None \/ n_v n1' = PDone None).
Proof.
  intros bs br reset NB gs gr extk extk' voleK voleK' bK bK' oK oK' d d' threads bufsz polysz junk G Gp h1 h2 h1' h2' RP P c k n Hb V V' Hn. split.
  - exact (proj1 (twin_run bs br reset NB gs gr P V V k n (fver_silent _ _ _ _ _ _ _ _ _ _ _ _ _) Hn)).
  - destruct (stwin_run bs br reset NB gs gr P V V' k n) as (j & n1 & n1' & L & H1 & H2 & (E1 & E2 & E3 & E4 & E5) & X); [|exact Hn|].
    + apply fver_stwin; [exact Hb|]. split; reflexivity.
    + exists j, n1, n1'. repeat (split; [assumption|]). destruct X as [(-> & -> & T)|X]; [left|right; exact X].
      split; [reflexivity|]. split; [reflexivity|]. intros [v Ev]. rewrite Ev in T. inversion T; eauto.
Qed.

(** ** soundness over the channel.  [ends d e v]: against the prover program [P], a run with key d leaves the verifier's
    endpoint in state e (everything it read and hashed) and ends normally with v *)
Definition ends bs br reset NB gs gr ext voleV voleM bM oM threads bufsz polysz junk G Gp h1 h2 {RP : Type} (P : proc RP) c (d : N) (e : ep) (v : fvst) : Prop :=
  exists k n, nsteps bs br reset NB k (n_init NB gs gr P (fver ext voleV voleM bM oM threads bufsz polysz junk G Gp h1 h2 c d)) n /\
    n_r n = e /\ n_v n = PDone (Some v).
Definition commit_read (ext : nat -> fwire) voleV bM bufsz polysz c (e : ep) : fcst :=
  fcommit (fun i => fst (ext i)) voleV bM bufsz polysz (fun i => dec_bytes (nth i (of_len 16 (read_data (e_reads e))) []))
    (fun i => nth i (read_bits (e_reads e)) false) c.
(** whatever the program does, the elements of the verifier are the keys of values fixed by what it has read *)
Theorem C54_outputs_bound : forall bs br reset NB gs gr ext voleV voleM bM oM threads bufsz polysz junk G Gp h1 h2 (RP : Type) (P : proc RP) c (e : ep),
  1 <= threads -> 1 <= bufsz ->
  exists ws, map fst ws = fc_w (commit_read ext voleV bM bufsz polysz c e) /\
  forall d v, valid_delta d -> ends bs br reset NB gs gr ext voleV voleM bM oM threads bufsz polysz junk G Gp h1 h2 P c d e v ->
    fv_w v = map (key_of d) ws.
Proof.
  intros bs br reset NB gs gr ext voleV voleM bM oM threads bufsz polysz junk G Gp h1 h2 RP P c e Ht Hb.
  destruct (PropF2k.C31_outputs_bound ext voleV voleM bM oM threads bufsz polysz
    (fun k => G (nth k (digs 32 (read_data (e_reads e)) (e_digests e)) [])) (fun k => Gp (nth k (digs 80 (read_data (e_reads e)) (e_digests e)) [])) junk
    (fun i => dec_bytes (nth i (of_len 16 (read_data (e_reads e))) [])) (fun i => nth i (read_bits (e_reads e)) false) c Ht Hb) as (ws & W & K).
  exists ws. split; [exact W|]. intros d v Vd (k & n & Hn & He & Hv). subst e.
  pose proof (C54_result_from_transcript bs br reset NB gs gr _ _ _ _ d threads bufsz polysz junk G Gp h1 h2 RP P c k n (Some v) Hb Hn Hv) as E.
  eapply K; [exact Vd|]. exact E.
Qed.
(** wrong values, no complaint: at most five keys, or a challenge that combines the errors of a batch to zero *)
Theorem C54_soundness : forall bs br reset NB gs gr ext voleV voleM bM oM threads bufsz polysz junk G Gp h1 h2 (RP : Type) (P : proc RP) c (e : ep) (deltas : list N),
  1 <= threads -> 1 <= bufsz -> NoDup deltas -> Forall (Forall (fun b => (b < 256)%N)) (read_data (e_reads e)) ->
  let ends := ends bs br reset NB gs gr ext voleV voleM bM oM threads bufsz polysz junk G Gp h1 h2 P c in
  let cm := commit_read ext voleV bM bufsz polysz c e in
  fc_w cm <> fplain (fun i => fst (ext i)) 0 [] c ->
  (forall d, In d deltas -> valid_delta d /\ exists v, ends d e v /\ fv_printed v = 0) ->
  length deltas <= 5 \/
  (exists k es x, nth_error (fbatches cm) k = Some es /\ In x es /\ x <> 0%N /\
     fcombined (f_ranges threads (length es)) (G (nth k (digs 32 (read_data (e_reads e)) (e_digests e)) [])) es = 0%N) \/
  (exists k es x, nth_error (pbatches cm) k = Some es /\ In x es /\ snd x <> 0%N /\
     weighted (Gp (nth k (digs 80 (read_data (e_reads e)) (e_digests e)) [])) (deg_errs 5 es) = 0%N).
Proof.
  intros bs br reset NB gs gr ext voleV voleM bM oM threads bufsz polysz junk G Gp h1 h2 RP P c e deltas Ht Hb Hnd Hbytes E cm Hw Hd.
  set (datas := read_data (e_reads e)) in *.
  set (seeds := fun k => G (nth k (digs 32 datas (e_digests e)) [])). set (pseeds := fun k => Gp (nth k (digs 80 datas (e_digests e)) [])).
  set (corr := fun i => dec_bytes (nth i (of_len 16 datas) [])). set (bitmsg := fun i => nth i (read_bits (e_reads e)) false).
  set (chkmsg := fun k => dec2 (nth k (of_len 32 datas) [])). set (polymsg := fun k => dec5 (nth k (of_len 80 datas) [])).
  assert (K : forall d v, E d e v -> f_session ext voleV voleM bM oM threads bufsz polysz seeds pseeds junk corr bitmsg chkmsg polymsg h1 h2 c d = Some v).
  { intros d v (k & n & Hn & He & Hv). unfold seeds, pseeds, corr, bitmsg, chkmsg, polymsg, datas. rewrite <- He.
    exact (C54_result_from_transcript bs br reset NB gs gr _ _ _ _ d threads bufsz polysz junk G Gp h1 h2 RP P c k n (Some v) Hb Hn Hv). }
  destruct (PropF2k.C31_wrong_value_has_error (fun i => fst (ext i)) voleV bM bufsz polysz corr bitmsg c Hw) as [(k & es & x & H1 & H2 & H3)|(k & es & x & H1 & H2 & H3)].
  - destruct (N.eq_dec (fcombined (f_ranges threads (length es)) (seeds k) es) 0) as [Z|Z].
    + right. left. exists k, es, x. auto.
    + left. enough (length deltas <= 2) by lia.
      apply (PropF2k.C31_mul_soundness ext voleV voleM bM oM threads bufsz polysz seeds pseeds junk corr bitmsg c chkmsg polymsg h1 h2 k es deltas Ht Hb H1 Z Hnd).
      intros d Hin. destruct (Hd d Hin) as (V & v & Ev & Hp). split; [exact V|]. exists v. auto.
  - destruct (N.eq_dec (weighted (pseeds k) (deg_errs 5 es)) 0) as [Z|Z].
    + right. right. exists k, es, x. auto.
    + left. apply (PropF2k.C32_degree5_soundness ext voleV voleM bM oM threads bufsz polysz seeds pseeds junk corr bitmsg c chkmsg polymsg h1 h2 k es deltas Ht Hb H1 Z); auto.
      * unfold polymsg, dec5. cbn [r0]. unfold dec_at. cbn [Nat.mul skipn].
        set (l := nth k (of_len 80 datas) []).
        assert (F : Forall (fun b => (b < 256)%N) (firstn 16 l)).
        { assert (Fl : Forall (fun b => (b < 256)%N) l).
          { unfold l. apply nth_blk; [|constructor]. unfold of_len. apply Forall_forall. intros y Hy. apply filter_In in Hy. destruct Hy as [Hy _].
            rewrite Forall_forall in Hbytes. now apply Hbytes. }
          rewrite <- (firstn_skipn 16 l) in Fl. now apply Forall_app in Fl. }
        eapply N.lt_le_trans; [apply PropAWire.dec_bytes_lt; exact F|]. apply N.pow_le_mono_r; [discriminate|]. rewrite firstn_length. lia.
      * intros d Hin. destruct (Hd d Hin) as (V & v & Ev & Hp). split; [exact V|]. exists v. auto.
Qed.

(** ** what a prover program can do.  The hash covers the bits sent with send_bit but not the messages (C16), so the
    circuit and the bits fix all challenges: corrections and check messages can be chosen afterwards, and a program that
    sends them makes the verifier end, for every key and every interleaving, as in the message-level session *)
Theorem C54_challenges_fixed_by_bits : forall bs br reset NB gs gr bufsz polysz (G : list N -> nat -> N) (Gp : list N -> N) c bitmsg,
  1 <= NB -> length gs = NB -> 1 <= bufsz ->
  exists seeds pseeds, forall ext voleV voleM bM oM threads junk corr chkmsg polymsg h1 h2,
    (forall i, (corr i < 2 ^ 128)%N) -> (forall k, (fst (chkmsg k) < 2 ^ 128 /\ snd (chkmsg k) < 2 ^ 128)%N) ->
    (forall k, (r0 (polymsg k) < 2 ^ 128 /\ r1 (polymsg k) < 2 ^ 128 /\ r2 (polymsg k) < 2 ^ 128 /\ r3 (polymsg k) < 2 ^ 128 /\ r4 (polymsg k) < 2 ^ 128)%N) ->
    exists (P : proc unit) (bound : nat), forall d v,
      f_session ext voleV voleM bM oM threads bufsz polysz seeds pseeds junk corr bitmsg chkmsg polymsg h1 h2 c d = Some v ->
      forall k n, nsteps bs br reset NB k (n_init NB gs gr P (fver ext voleV voleM bM oM threads bufsz polysz junk G Gp h1 h2 c d)) n ->
        k <= bound /\
        ((exists n', nstep bs br reset NB n n') \/ (n_p n = PDone tt /\ n_v n = PDone (Some v) /\ n_sr n = [] /\ n_rs n = [])).
Proof.
  intros bs br reset NB gs gr bufsz polysz G Gp c bitmsg HNB Hgs Hb.
  exists (fseeds bs reset NB gs bufsz polysz G c bitmsg), (fpseeds bs reset NB gs bufsz polysz Gp c bitmsg).
  intros ext voleV voleM bM oM threads junk corr chkmsg polymsg h1 h2 B1 B2 B3.
  set (os := ops corr bitmsg chkmsg polymsg (items bufsz polysz h_init c)).
  exists (replay (compile (os ++ [OFlush]))), (2 * length (compile (os ++ [OFlush]))). intros d v E k n Hn.
  exact (replay_net bs br reset NB gs gr ext voleV voleM bM oM threads bufsz polysz G Gp HNB Hgs Hb c junk corr bitmsg chkmsg polymsg h1 h2 d v B1 B2 B3 E k n Hn).
Qed.
(** so one program makes the verifier accept any claimed value of a product, for every key: the corrections of two
    multiplications are chosen so that their errors cancel under the challenge *)
Theorem C54_late_corrections_refuted : exists c, (forall x, fplain x 0 [] c = [x 0; gfmul (x 0) (x 0); gfmul (x 0) (x 0)]) /\
  forall bs br reset NB gs gr ext voleV voleM bM oM bufsz polysz junk G Gp h1 h2 w,
  1 <= NB -> length gs = NB -> 2 <= bufsz -> (forall r i, (voleV r i < 2 ^ 128)%N) -> (forall r i, (junk r i < 2 ^ 128)%N) -> (w < 2 ^ 128)%N ->
  exists (P : proc unit) (bound : nat) (ws : list fwire),
    (exists u, map fst ws = [fst (ext 0); u; w]) /\
    forall d, valid_delta d -> exists v, fv_printed v = 0 /\ fv_cheat v = [] /\ fv_w v = map (key_of d) ws /\
      forall k n, nsteps bs br reset NB k (n_init NB gs gr P (fver ext voleV voleM bM oM 1 bufsz polysz junk G Gp h1 h2 c d)) n ->
        k <= bound /\
        ((exists n', nstep bs br reset NB n n') \/ (n_p n = PDone tt /\ n_v n = PDone (Some v) /\ n_sr n = [] /\ n_rs n = [])).
Proof.
  exists late_c. split; [reflexivity|]. intros bs br reset NB gs gr ext voleV voleM bM oM bufsz polysz junk G Gp h1 h2 w HNB Hgs Hb HV Hj Hw.
  destruct (C54_challenges_fixed_by_bits bs br reset NB gs gr bufsz polysz G Gp late_c (fun _ => false) HNB Hgs ltac:(lia)) as (seeds & pseeds & K).
  set (corr := late_corr (fst (ext 0)) voleV (seeds 0 0) w).
  destruct (late_commit ext voleV bM bufsz polysz seeds (fun _ => false) w Hb) as (W1 & W2 & W3).
  destruct (vanishing ext voleV voleM bM oM 1 bufsz polysz seeds pseeds junk corr (fun _ => false) (le_n 1) ltac:(lia) late_c Hj W2) as (chk & pm & B2 & B3 & H).
  { unfold corr. rewrite W3. intros [|k] es Hk; discriminate. }
  assert (B1 : forall i, (corr i < 2 ^ 128)%N).
  { intro i. unfold corr, late_corr. apply lxor_lt; [apply HV|]. apply lxor_lt; [apply gfmul_lt|]. destruct i; [apply gfmul_lt|].
    apply lxor_lt; [apply gfmul_lt|exact Hw]. }
  destruct (K ext voleV voleM bM oM 1 junk corr chk pm h1 h2 B1 B2 B3) as (P & bound & Q).
  destruct (PropF2k.C31_outputs_bound ext voleV voleM bM oM 1 bufsz polysz seeds pseeds junk corr (fun _ => false) late_c (le_n 1) ltac:(lia)) as (ws & E & O).
  exists P, bound, ws. split; [rewrite E; exact W1|]. intros d Vd. destruct (H h1 h2 d Vd) as (v & Ev & Pr & Ch).
  exists v. split; [exact Pr|]. split; [exact Ch|]. split; [exact (O chk pm h1 h2 d v Vd Ev)|]. exact (Q d v Ev).
Qed.

(** ** computed runs *)
Definition demo_Gp (h : list N) : N := (dec_bytes h mod 2 ^ 128 + 9)%N.
Definition fnet c (P : proc fpst) (d : N) :=
  n_init 8 (repeat true 8) (repeat false 8) P
    (fver PropF2k.fdemo_ext PropF2k.fdemo_V PropF2k.fdemo_M PropF2k.fdemo_b PropF2k.fdemo_b 1 2 2 (fun _ _ => 0%N) PropWire.demo_G demo_Gp PropF2k.fzero PropF2k.fzero c d).
Definition fprv c := fprv_prog PropF2k.fdemo_ext PropF2k.fdemo_V PropF2k.fdemo_M PropF2k.fdemo_b PropF2k.fdemo_b 1 2 2 (fun _ _ => (0, 0)%N) PropWire.demo_G demo_Gp
  (fp_init PropF2k.fdemo_V PropF2k.fdemo_M PropF2k.fzero PropF2k.fzero PropF2k.fzero PropF2k.fzero) c.
(** an honest session with two multiplication checks and two product checks *)
Example C54_case :
  let c := PropF2k.fdemo_c in
  let n := PropWire.play 3000 true false true 8 (fnet c (fprv c) PropF2k.fdemo_d) in
  count_mul c = 4 /\ last_batch 2 (count_mul c) = 2 /\ valid_delta PropF2k.fdemo_d /\
  match n_p n, n_v n with
  | PDone p, PDone (Some v) =>
      map fst (fp_w p) = fplain (fun i => fst (PropF2k.fdemo_ext i)) 0 [] c /\ fv_w v = map (key_of PropF2k.fdemo_d) (fp_w p) /\ fv_printed v = 0 /\
      map (@length N) (read_data (e_reads (n_r n))) = [16; 16; 32; 16; 80; 16; 80; 32] /\ length (read_bits (e_reads (n_r n))) = 390 /\
      length (e_digests (n_r n)) = 4 /\ n_sr n = [] /\ n_rs n = []
  | _, _ => False end.
Proof. split; [reflexivity|]. split; [reflexivity|]. split; [split; reflexivity|]. vm_compute. repeat split; reflexivity. Qed.
(** a prover program that claims a wrong square: the verifier reads everything and prints one failing check *)
Definition wrong_prog : proc fpst :=
  PAlign true (PPut (enc_block 1) (PFlush (PHash (fun _ => PAlign true (PPut (repeat 0%N 32) (PFlush (PFlush
    (PDone (fp_init PropF2k.fdemo_V PropF2k.fdemo_M PropF2k.fzero PropF2k.fzero PropF2k.fzero PropF2k.fzero))))))))).
Example C54_wrong_case :
  let c := [FExt; FMul 0 0] in
  let n := PropWire.play 100 true false true 8 (fnet c wrong_prog PropF2k.fdemo_d) in
  match n_v n with
  | PDone (Some v) => fv_printed v = 1 /\ fbatches (commit_read PropF2k.fdemo_ext PropF2k.fdemo_V PropF2k.fdemo_b 2 2 c (n_r n)) = [[17%N]] /\
      forallb (forallb (fun b => (b <? 256)%N)) (read_data (e_reads (n_r n))) = true
  | _ => False end.
Proof. vm_compute. repeat split; reflexivity. Qed.
(** the program of the refutation above, computed: the second square of 5 is claimed to be 1234, and two different keys accept *)
Definition late_prog : proc unit :=
  let s := fseeds true true 8 (repeat true 8) 2 2 PropWire.demo_G late_c (fun _ => false) in
  let corr := late_corr 5 PropF2k.fdemo_V (s 0 0) 1234 in
  PAlign true (PPut (enc_block (corr 0)) (PAlign true (PPut (enc_block (corr 1)) (PFlush (PHash (fun h =>
    let A := fp_A_star (fun _ => 5%N) (fun _ => snd (PropF2k.fdemo_ext 0)) (fun _ => 5%N) (fun _ => snd (PropF2k.fdemo_ext 0))
               (fun i => PropF2k.fdemo_M 0 i) [(0, 2)] (PropWire.demo_G h) (fun _ => (0, 0)%N) (map PropF2k.fdemo_b (seq 0 128)) in
    PAlign true (PPut (enc2 A) (PFlush (PFlush (PDone tt)))))))))).
Example C54_late_case :
  let run d := PropWire.play 100 true false true 8 (n_init 8 (repeat true 8) (repeat false 8) late_prog
    (fver PropF2k.fdemo_ext PropF2k.fdemo_V PropF2k.fdemo_M PropF2k.fdemo_b PropF2k.fdemo_b 1 2 2 (fun _ _ => 0%N) PropWire.demo_G demo_Gp PropF2k.fzero PropF2k.fzero late_c d)) in
  let ok d := match n_v (run d) with
              | PDone (Some v) => fv_printed v = 0 /\ nth 2 (fv_w v) 0%N = key_of d (1234%N, PropF2k.fdemo_M 0 1)
              | _ => False end in
  fst (PropF2k.fdemo_ext 0) = 5%N /\ gfmul 5 5 = 17%N /\ ok PropF2k.fdemo_d /\ ok 0xABCDEF0123456789ABCDEF0123456781%N.
Proof. vm_compute. repeat split; reflexivity. Qed.

Print Assumptions C54_honest_session.
Print Assumptions C54_result_from_transcript.
Print Assumptions C54_key_only_decides_stop.
Print Assumptions C54_outputs_bound.
Print Assumptions C54_soundness.
Print Assumptions C54_challenges_fixed_by_bits.
Print Assumptions C54_late_corrections_refuted.
