(** Proofs about BoolIO: packing, synchronisation, interleaved execution. *)
From Coq Require Import NArith List Bool Arith Lia.
From Verif Require Import Word BoolIOModel BoolIOSpec.
Import ListNotations.

(** * Packing *)
Lemma pack8_paths l : length l = 8 -> pack8 true l = pack8 false l.
Proof.
  intro H. do 8 (destruct l as [|[] l]; [discriminate| |]); destruct l; try discriminate; vm_compute; reflexivity.
Qed.
Lemma pack8_unpack8 b1 b2 l : length l = 8 -> unpack8 b2 (pack8 b1 l) = l.
Proof.
  intro H. do 8 (destruct l as [|[] l]; [discriminate| |]); destruct l; try discriminate;
    destruct b1, b2; vm_compute; reflexivity.
Qed.
Lemma pack8_lt b l : (pack8 b l < 256)%N. Proof. unfold pack8. apply N.mod_lt. discriminate. Qed.
Lemma unpack8_paths byte : (byte < 256)%N -> unpack8 true byte = unpack8 false byte.
Proof.
  intro H. assert (A : forallb (fun i => if list_eq_dec Bool.bool_dec (unpack8 true (N.of_nat i)) (unpack8 false (N.of_nat i))
                                   then true else false) (seq 0 256) = true) by (vm_compute; reflexivity).
  rewrite forallb_forall in A. specialize (A (N.to_nat byte)). rewrite in_seq, N2Nat.id in A.
  destruct (list_eq_dec _ _ _); [easy|]. discriminate A. lia.
Qed.
Lemma pack_blocks_len b n : forall l, length (pack_blocks b n l) = n.
Proof. induction n; intro l; cbn; auto. Qed.
Lemma pack_blocks_ok b1 b2 n : forall l, 8 * n <= length l ->
  flat_map (unpack8 b2) (pack_blocks b1 n l) = firstn (8 * n) l.
Proof.
  induction n as [|n IH]; intros l H; [now rewrite Nat.mul_0_r|]. cbn [pack_blocks flat_map].
  rewrite pack8_unpack8 by (rewrite firstn_length; lia). rewrite IH by (rewrite skipn_length; lia).
  replace (8 * S n) with (8 + 8 * n) by lia.
  rewrite <- (firstn_skipn 8 l) at 3. rewrite firstn_app, firstn_length, (firstn_all2 (firstn 8 l)).
  - f_equal. f_equal. lia.
  - rewrite firstn_length. lia.
Qed.
Lemma send_bool_raw_len b l : length (send_bool_raw b l) = length l / 8 + (length l - 8 * (length l / 8)).
Proof. unfold send_bool_raw. rewrite app_length, pack_blocks_len, map_length, skipn_length. reflexivity. Qed.
Lemma b01_bool b : negb (N.eqb (b01 b) 0) = b. Proof. now destruct b. Qed.
Lemma raw_roundtrip b1 b2 data rest :
  recv_bool_raw b2 (length data) (send_bool_raw b1 data ++ rest) = Some (data, send_bool_raw b1 data, rest).
Proof.
  unfold recv_bool_raw. pose proof (send_bool_raw_len b1 data) as L.
  set (n := length data / 8) in *.
  assert (Hn : 8 * n <= length data) by (unfold n; apply Nat.mul_div_le; lia).
  destruct (Nat.ltb_spec (length (send_bool_raw b1 data ++ rest)) (n + (length data - 8 * n))) as [X|_].
  { rewrite app_length in X. lia. }
  match goal with |- Some (_, _, skipn ?k ?x) = _ => assert (K : skipn k x = rest) end.
  { rewrite <- L. rewrite skipn_app, skipn_all, Nat.sub_diag. reflexivity. }
  rewrite K. clear K. unfold send_bool_raw. fold n. rewrite <- app_assoc.
  rewrite firstn_app, pack_blocks_len, Nat.sub_diag, firstn_O, app_nil_r, firstn_all2 by (rewrite pack_blocks_len; lia).
  rewrite skipn_app, pack_blocks_len, Nat.sub_diag, skipn_O, skipn_all2 by (rewrite pack_blocks_len; lia).
  cbn [app]. rewrite firstn_app, map_length, skipn_length, Nat.sub_diag, firstn_O, app_nil_r.
  rewrite firstn_all2 by (rewrite map_length, skipn_length; lia).
  rewrite pack_blocks_ok by easy. rewrite map_map.
  rewrite (map_ext _ (fun b => b)) by (intro; apply b01_bool). rewrite map_id, firstn_skipn. reflexivity.
Qed.
Lemma raw_inj b d1 d2 : length d1 = length d2 -> send_bool_raw b d1 = send_bool_raw b d2 -> d1 = d2.
Proof.
  intros L E. pose proof (raw_roundtrip b b d1 []) as R1. pose proof (raw_roundtrip b b d2 []) as R2.
  rewrite <- L, <- E, R1 in R2. congruence.
Qed.
Lemma raw_inj_app b d1 d2 x y : length d1 = length d2 ->
  send_bool_raw b d1 ++ x = send_bool_raw b d2 ++ y -> d1 = d2 /\ x = y.
Proof.
  intros L E. pose proof (raw_roundtrip b b d1 x) as R1. pose proof (raw_roundtrip b b d2 y) as R2.
  rewrite <- L, <- E, R1 in R2. injection R2 as -> _ ->. auto.
Qed.
Lemma raw_paths l : send_bool_raw true l = send_bool_raw false l.
Proof.
  unfold send_bool_raw. f_equal. assert (H : 8 * (length l / 8) <= length l) by (apply Nat.mul_div_le; lia).
  revert H. generalize (length l / 8) as n. intro n. revert l.
  induction n as [|n IH]; intros l H; [reflexivity|]. cbn [pack_blocks]. f_equal.
  - apply pack8_paths. rewrite firstn_length. lia.
  - apply IH. rewrite skipn_length. lia.
Qed.
Lemma raw_any b b' l : send_bool_raw b l = send_bool_raw b' l.
Proof. destruct b, b'; auto using raw_paths. Qed.
Lemma recv_raw_frame b n ch x r : recv_bool_raw b n ch = Some r ->
  recv_bool_raw b n (ch ++ x) = Some (fst (fst r), snd (fst r), snd r ++ x).
Proof.
  unfold recv_bool_raw. destruct (Nat.ltb_spec (length ch) (n / 8 + (n - 8 * (n / 8)))) as [|H]; [discriminate|].
  intro E. injection E as <-. cbn [fst snd].
  destruct (Nat.ltb_spec (length (ch ++ x)) (n / 8 + (n - 8 * (n / 8)))) as [X|_]; [rewrite app_length in X; lia|].
  rewrite !firstn_app, !skipn_app.
  replace (n / 8 - length ch) with 0 by lia. cbn [firstn skipn].
  replace (n / 8 + (n - 8 * (n / 8)) - length ch) with 0 by lia. cbn [skipn].
  rewrite app_nil_r, firstn_app.
  replace (n - 8 * (n / 8) - length (skipn (n / 8) ch)) with 0 by (rewrite skipn_length; lia).
  cbn [firstn]. rewrite app_nil_r. reflexivity.
Qed.

(** * Buffers *)
Lemma upd_length l : forall i b, length (upd l i b) = length l.
Proof. induction l as [|x l IH]; intros [|i] b; cbn; auto. Qed.
Lemma upd_firstn l : forall i b, i < length l -> firstn (S i) (upd l i b) = firstn i l ++ [b].
Proof.
  induction l as [|x l IH]; intros [|i] b H; cbn [length] in H; try lia; [reflexivity|].
  cbn [upd]. rewrite (firstn_cons (S i)), IH by lia. reflexivity.
Qed.
Lemma firstn_S_nth {A} (d : A) l i : i < length l -> firstn (S i) l = firstn i l ++ [nth i l d].
Proof. revert i. induction l as [|x l IH]; intros [|i] H; cbn in *; try lia; auto. rewrite (IH i) by lia. reflexivity. Qed.
Lemma firstn_step_inv {A} (d : A) (l1 l : list A) i x : i < length l1 ->
  firstn (S i) l1 = l ++ [x] -> length l = i -> firstn i l1 = l /\ nth i l1 d = x.
Proof.
  intros H E L. rewrite (firstn_S_nth d) in E by easy. apply app_inj_tail in E. exact E.
Qed.

Section Sync.
  Variables (bs br reset : bool) (NB : nat).
  Hypothesis HNB : 1 <= NB.
  Notation pack := (send_bool_raw bs).
  Definition add_read (e : ep) (x : rd) : ep :=
    {| e_buf := e_buf e; e_ptr := e_ptr e; e_hash := e_hash e; e_reads := e_reads e ++ [x]; e_digests := e_digests e |}.
  (** the sender's action when its reads deliver the scheduled payload *)
  Definition sq (e : ep) (a : act) : ep * list N :=
    match a with
    | ABit b => send_bit bs NB e b
    | AAlign true => if Nat.eqb (e_ptr e) 0 then (e, []) else flush_s bs NB e
    | AAlign false => if Nat.eqb (e_ptr e) NB then (e, []) else flush_s bs NB e
    | AXfer true b => (e, b)
    | AXfer false b => (add_read e (RdData b), [])
    | AFlush => flush_s bs NB e
    | AHash => (get_hash reset e, [])
    end.
  Fixpoint sq_run (e : ep) (l : list act) : ep * list N :=
    match l with
    | [] => (e, [])
    | a :: l' => let '(e1, o1) := sq e a in let '(e2, o2) := sq_run e1 l' in (e2, o1 ++ o2)
    end.
  Lemma sq_run_app l1 : forall e l2, sq_run e (l1 ++ l2) =
    let '(e1, o1) := sq_run e l1 in let '(e2, o2) := sq_run e1 l2 in (e2, o1 ++ o2).
  Proof.
    induction l1 as [|a l1 IH]; intros e l2; cbn [app sq_run]; [now destruct (sq_run e l2)|].
    destruct (sq e a) as [e1 o1]. rewrite IH. destruct (sq_run e1 l1) as [e2 o2].
    destruct (sq_run e2 l2). now rewrite app_assoc.
  Qed.
  Fixpoint r_run (r : ep) (l : list act) (ch : list N) : option (ep * list N * list N) :=
    match l with
    | [] => Some (r, [], ch)
    | a :: l' => match r_act br reset NB r a ch with
                 | None => None
                 | Some (r1, o1, ch1) =>
                     match r_run r1 l' ch1 with
                     | None => None
                     | Some (r2, o2, ch2) => Some (r2, o1 ++ o2, ch2)
                     end
                 end
    end.
  (** well formed action lists: transfers directly after alignment *)
  Fixpoint wf (al : bool) (l : list act) : bool :=
    match l with
    | [] => true
    | ABit _ :: l' => wf false l'
    | AAlign _ :: l' | AFlush :: l' => wf true l'
    | AXfer _ _ :: l' => al && wf true l'
    | AHash :: l' => wf al l'
    end.
  Fixpoint wfh (al : bool) (l : list act) : bool :=
    match l with
    | [] => true
    | ABit _ :: l' => wfh false l'
    | AAlign _ :: l' | AFlush :: l' => wfh true l'
    | AXfer _ _ :: l' => wfh al l'
    | AHash :: l' => al && wfh al l'
    end.
  Fixpoint exp_r (l : list act) : list rd :=
    match l with
    | [] => []
    | ABit b :: l' => RdBit b :: exp_r l'
    | AXfer true b :: l' => RdData b :: exp_r l'
    | _ :: l' => exp_r l'
    end.
  Fixpoint exp_s (l : list act) : list rd :=
    match l with
    | [] => []
    | AXfer false b :: l' => RdData b :: exp_s l'
    | _ :: l' => exp_s l'
    end.
  Fixpoint pay_rs (l : list act) : list N :=
    match l with
    | [] => []
    | AXfer false b :: l' => b ++ pay_rs l'
    | _ :: l' => pay_rs l'
    end.

  Lemma flush_nonzero : forall fuel e, 0 < e_ptr e -> e_ptr e < NB -> NB - e_ptr e <= fuel -> length (e_buf e) = NB ->
    exists blk, flush_loop bs NB fuel e =
      ({| e_buf := blk; e_ptr := 0; e_hash := e_hash e ++ pack blk; e_reads := e_reads e; e_digests := e_digests e |}, pack blk)
      /\ length blk = NB /\ firstn (e_ptr e) blk = firstn (e_ptr e) (e_buf e).
  Proof.
    induction fuel as [|f IH]; intros e H0 H1 Hf Hl; [lia|]. cbn [flush_loop].
    destruct (Nat.eqb_spec (e_ptr e) 0); [lia|]. unfold send_bit.
    destruct (Nat.eqb_spec (S (e_ptr e)) NB) as [E|E].
    - exists (upd (e_buf e) (e_ptr e) true).
      assert (X : forall f' e', e_ptr e' = 0 -> flush_loop bs NB f' e' = (e', [])).
      { intros [|f'] e' Z; cbn; [easy|]. now rewrite Z. }
      rewrite X by reflexivity. rewrite app_nil_r. split; [reflexivity|]. rewrite upd_length. split; [easy|].
      pose proof (upd_firstn (e_buf e) (e_ptr e) true ltac:(lia)) as U.
      apply (firstn_step_inv false) in U; [easy|rewrite upd_length; lia|rewrite firstn_length; lia].
    - match goal with |- context [flush_loop bs NB f ?e'] => destruct (IH e') as (blk & Eb & Lb & Fb) end;
        cbn [e_ptr e_buf]; try lia.
      { now rewrite upd_length. }
      cbn [e_ptr e_buf e_hash e_reads e_digests] in *. rewrite Eb. exists blk. split; [reflexivity|]. split; [easy|].
      rewrite upd_firstn in Fb by lia.
      apply (firstn_step_inv false) in Fb; [easy|lia|rewrite firstn_length; lia].
  Qed.
  Lemma flush_zero e : e_ptr e = 0 -> flush_s bs NB e = (e, []).
  Proof. intro H. unfold flush_s. destruct NB; [lia|]. cbn. now rewrite H. Qed.
  Lemma flush_pos e : 0 < e_ptr e < NB -> length (e_buf e) = NB ->
    exists blk, flush_s bs NB e =
      ({| e_buf := blk; e_ptr := 0; e_hash := e_hash e ++ pack blk; e_reads := e_reads e; e_digests := e_digests e |}, pack blk)
      /\ length blk = NB /\ firstn (e_ptr e) blk = firstn (e_ptr e) (e_buf e).
  Proof. intros H L. apply flush_nonzero; lia. Qed.
  (** aligning actions on the sender *)
  Definition is_align (a : act) : bool := match a with AAlign _ | AFlush => true | _ => false end.
  Lemma sq_align e a : is_align a = true -> e_ptr e < NB -> sq e a = flush_s bs NB e.
  Proof.
    intros Ha H. destruct a as [|[]| | |]; try discriminate; cbn [sq]; auto.
    - destruct (Nat.eqb_spec (e_ptr e) 0); [now rewrite flush_zero|easy].
    - destruct (Nat.eqb_spec (e_ptr e) NB); [lia|easy].
  Qed.
  Lemma sq_ptr e a : e_ptr e < NB -> length (e_buf e) = NB -> e_ptr (fst (sq e a)) < NB /\ length (e_buf (fst (sq e a))) = NB.
  Proof.
    intros H L. destruct (is_align a) eqn:Ea.
    - rewrite sq_align by easy. destruct (Nat.eq_dec (e_ptr e) 0) as [Z|Z].
      + rewrite flush_zero by easy. auto.
      + destruct (flush_pos e ltac:(lia) L) as (blk & -> & Lb & _). cbn. auto with arith.
    - destruct a as [b|[]|[]| |]; try discriminate; cbn [sq fst]; auto.
      unfold send_bit. destruct (Nat.eqb_spec (S (e_ptr e)) NB); cbn [fst e_ptr e_buf]; rewrite upd_length; split; auto; lia.
  Qed.
  (** a pending partial block is completed by what the sender does later *)
  Lemma pending l : forall al e e' F, wf al l = true -> (al = true -> e_ptr e = 0) -> 0 < e_ptr e < NB -> length (e_buf e) = NB ->
    sq_run e l = (e', F) -> e_ptr e' = 0 ->
    exists blk rest, F = pack blk ++ rest /\ length blk = NB /\ firstn (e_ptr e) blk = firstn (e_ptr e) (e_buf e).
  Proof.
    induction l as [|a l IH]; intros al e e' F W Hal Hp Hl E Z.
    - cbn in E. injection E as <- <-. lia.
    - cbn [sq_run] in E. destruct (sq e a) as [e1 o1] eqn:Ea. destruct (sq_run e1 l) as [e2 o2] eqn:E2.
      injection E as <- <-. destruct (is_align a) eqn:Ia.
      + rewrite sq_align in Ea by (easy || lia). destruct (flush_pos e Hp Hl) as (blk & Eb & Lb & Fb).
        rewrite Eb in Ea. injection Ea as <- <-. exists blk, o2. auto.
      + destruct a as [b|[]|x b| |]; try discriminate.
        * cbn [sq] in Ea. unfold send_bit in Ea. destruct (Nat.eqb_spec (S (e_ptr e)) NB) as [EN|EN].
          -- injection Ea as <- <-. exists (upd (e_buf e) (e_ptr e) b), o2. rewrite upd_length. repeat split; auto.
             pose proof (upd_firstn (e_buf e) (e_ptr e) b ltac:(lia)) as U.
             apply (firstn_step_inv false) in U; [easy|rewrite upd_length; lia|rewrite firstn_length; lia].
          -- injection Ea as <- <-. cbn [wf] in W.
             destruct (fun Ha Hb Hc => IH false _ e2 o2 W Ha Hb Hc E2 Z) as (blk & rest & -> & Lb & Fb); cbn [e_ptr e_buf]; auto; try easy; try lia.
             { now rewrite upd_length. }
             exists blk, rest. repeat split; auto. cbn [e_ptr e_buf] in Fb. rewrite upd_firstn in Fb by lia.
             apply (firstn_step_inv false) in Fb; [easy|lia|rewrite firstn_length; lia].
        * cbn [wf] in W. apply andb_prop in W. destruct W as [W _]. specialize (Hal W). lia.
        * cbn [sq] in Ea. injection Ea as <- <-. cbn [wf] in W.
          destruct (fun Hb Hc => IH al (get_hash reset e) e2 o2 W Hal Hb Hc E2 Z) as (blk & rest & -> & Lb & Fb); cbn [e_ptr e_buf get_hash]; auto.
          exists blk, rest. auto.
  Qed.

  Definition Inv (hk : bool) (s r : ep) (F ch : list N) : Prop :=
    length (e_buf s) = NB /\ e_ptr s < NB /\
    ((e_ptr s = 0 /\ e_ptr r = NB /\ ch = F /\
      (hk = true -> e_hash r = e_hash s /\ e_digests r = e_digests s)) \/
     (0 < e_ptr s /\ e_ptr r = e_ptr s /\ length (e_buf r) = NB /\
      firstn (e_ptr s) (e_buf r) = firstn (e_ptr s) (e_buf s) /\ F = pack (e_buf r) ++ ch /\
      (hk = true -> e_hash r = e_hash s ++ pack (e_buf r) /\ e_digests r = e_digests s))).
  (** aligning action on the receiver in an aligned or synchronised state *)
  Lemma r_align r a ch : is_align a = true -> 0 < e_ptr r <= NB ->
    r_act br reset NB r a ch = Some (set_ptr r NB, [], ch).
  Proof.
    intros Ha H. destruct a as [|[]| | |]; try discriminate; cbn [r_act]; auto.
    - destruct (Nat.eqb_spec (e_ptr r) NB) as [E|E]; [|reflexivity]. rewrite <- E. now destruct r.
    - destruct (Nat.eqb_spec (e_ptr r) 0) as [E|E]; [lia|reflexivity].
  Qed.
  Lemma recv_bit_read (r : ep) (b : bool) (p : nat) (ch ch' : list N) (blk : list bool) (fresh : bool) :
    nth p blk false = b ->
    (if fresh then e_ptr r = NB /\ p = 0 /\ length blk = NB /\ ch = pack blk ++ ch'
     else e_ptr r = p /\ p < NB /\ e_buf r = blk /\ ch = ch') ->
    recv_bit br NB r ch = Some (b, {| e_buf := blk; e_ptr := S p; e_hash := if fresh then e_hash r ++ pack blk else e_hash r;
       e_reads := e_reads r ++ [RdBit b]; e_digests := e_digests r |}, ch').
  Proof.
    intros Hb H. unfold recv_bit. destruct fresh.
    - destruct H as (E & -> & L & ->). rewrite E, Nat.eqb_refl. rewrite <- L at 1.
      rewrite raw_roundtrip. cbn [e_ptr e_buf e_hash e_reads e_digests]. now rewrite Hb.
    - destruct H as (E & Hp & <- & ->). destruct (Nat.eqb_spec (e_ptr r) NB); [lia|]. now rewrite E, Hb.
  Qed.

  Lemma sync hk l : forall al s r s' F ch, wf al l = true -> (al = true -> e_ptr s = 0) ->
    (hk = true -> wfh al l = true) -> Inv hk s r F ch -> sq_run s l = (s', F) -> e_ptr s' = 0 ->
    exists r', r_run r l ch = Some (r', pay_rs l, []) /\ e_ptr r' = NB /\
      e_reads r' = e_reads r ++ exp_r l /\ e_reads s' = e_reads s ++ exp_s l /\
      (hk = true -> e_hash r' = e_hash s' /\ e_digests r' = e_digests s').
  Proof.
    induction l as [|a l IH]; intros al s r s' F ch W Hal Hhk (Ls & Hs & D) E Z.
    - cbn in E. injection E as <- <-. destruct D as [(P & Pr & -> & Hh)|(P & _)]; [|lia].
      exists r. cbn. rewrite !app_nil_r. auto.
    - cbn [sq_run] in E. destruct (sq s a) as [s1 o1] eqn:Ea. destruct (sq_run s1 l) as [s2 F1] eqn:E1.
      injection E as <- <-. destruct (is_align a) eqn:Ia.
      + (* alignment *)
        rewrite sq_align in Ea by (easy || lia).
        assert (Wl : wf true l = true) by (destruct a as [|[]| | |]; try discriminate; exact W).
        assert (Wh : wfh al (a :: l) = wfh true l) by (destruct a as [|[]| | |]; try discriminate; reflexivity).
        assert (Er : exp_r (a :: l) = exp_r l) by (destruct a as [|[]| | |]; try discriminate; reflexivity).
        assert (Es : exp_s (a :: l) = exp_s l) by (destruct a as [|[]| | |]; try discriminate; reflexivity).
        assert (Ep : pay_rs (a :: l) = pay_rs l) by (destruct a as [|[]| | |]; try discriminate; reflexivity).
        rewrite Wh, Er, Es, Ep in *. clear Er Es Ep.
        assert (X : exists r1, r_act br reset NB r a ch = Some (r1, [], F1) /\ e_reads r1 = e_reads r /\
                     e_reads s1 = e_reads s /\ e_ptr s1 = 0 /\ Inv hk s1 r1 F1 F1).
        { destruct D as [(P & Pr & -> & Hh)|(P & Pr & Lr & Fr & EF & Hh)].
          - rewrite flush_zero in Ea by easy. injection Ea as <- <-.
            exists (set_ptr r NB). rewrite r_align by (easy || lia). repeat split; auto.
          - destruct (flush_pos s ltac:(lia) Ls) as (blk & Eb & Lb & Fb). rewrite Eb in Ea. injection Ea as <- <-.
            apply raw_inj_app in EF; [|lia]. destruct EF as [EF <-].
            exists (set_ptr r NB). rewrite r_align by (easy || lia). repeat split; auto.
            cbn [e_ptr e_buf]. left. cbn [e_ptr e_hash e_digests set_ptr]. repeat split; auto.
            + rewrite EF. now apply Hh.
            + now apply Hh. }
        destruct X as (r1 & Er1 & R1 & R2 & P1 & I1).
        destruct (IH true s1 r1 s2 F1 F1 Wl (fun _ => P1) Hhk I1 E1 Z) as (r' & Er' & Hp' & Hr' & Hs' & Hh').
        exists r'. cbn [r_run]. rewrite Er1, Er'. rewrite R1 in Hr'. rewrite R2 in Hs'. auto.
      + destruct a as [b|[]|fs b| |]; try discriminate.
        * (* bit *)
          cbn [sq wf wfh exp_r exp_s pay_rs] in *.
          assert (B : exists blk rest, o1 ++ F1 = pack blk ++ rest /\ length blk = NB /\
                    firstn (S (e_ptr s)) blk = firstn (e_ptr s) (e_buf s) ++ [b] /\ 
                    (S (e_ptr s) = NB -> rest = F1 /\ e_ptr s1 = 0 /\ e_hash s1 = e_hash s ++ pack blk) /\
                    (S (e_ptr s) <> NB -> o1 = [] /\ e_ptr s1 = S (e_ptr s) /\ e_hash s1 = e_hash s) /\
                    length (e_buf s1) = NB /\ firstn (S (e_ptr s)) (e_buf s1) = firstn (S (e_ptr s)) blk /\
                    e_digests s1 = e_digests s /\ e_reads s1 = e_reads s).
          { unfold send_bit in Ea. destruct (Nat.eqb_spec (S (e_ptr s)) NB) as [EN|EN].
            - injection Ea as <- <-. exists (upd (e_buf s) (e_ptr s) b), F1. cbn [e_ptr e_buf e_hash e_digests e_reads].
              rewrite upd_length, upd_firstn by lia. repeat split; auto; lia.
            - injection Ea as <- <-.
              destruct (fun Ha Hb Hc => pending l false _ s2 F1 W Ha Hb Hc E1 Z) as (blk & rest & -> & Lb & Fb);
                cbn [e_ptr e_buf]; try lia; auto.
              { now rewrite upd_length. }
              cbn [e_ptr e_buf] in Fb. exists blk, rest. cbn [e_ptr e_buf e_hash e_digests e_reads app].
              rewrite Fb, upd_length, upd_firstn by lia. repeat split; auto; lia. }
          destruct B as (blk & rest & EF & Lb & Fb & B1 & B2 & Ls1 & Fs1 & Dg & Rd).
          assert (Nb : firstn (e_ptr s) blk = firstn (e_ptr s) (e_buf s) /\ nth (e_ptr s) blk false = b).
          { apply (firstn_step_inv false) in Fb; [easy|lia|rewrite firstn_length; lia]. }
          destruct Nb as [Fp Nb].
          assert (X : exists r1 fresh, recv_bit br NB r ch = Some (b, r1, rest) /\
            r1 = {| e_buf := blk; e_ptr := S (e_ptr s); e_hash := if fresh : bool then e_hash r ++ pack blk else e_hash r;
                    e_reads := e_reads r ++ [RdBit b]; e_digests := e_digests r |} /\
            (hk = true -> e_hash r1 = e_hash s ++ pack blk /\ e_digests r = e_digests s)).
          { destruct D as [(P & Pr & -> & Hh)|(P & Pr & Lr & Fr & EF' & Hh)].
            - eexists _, true. split; [apply (recv_bit_read r b (e_ptr s) _ rest blk true Nb); repeat split; auto; lia|].
              split; [reflexivity|]. cbn [e_hash e_digests]. intro Hk. destruct (Hh Hk) as [-> ->]. auto.
            - rewrite EF in EF'. apply raw_inj_app in EF'; [|lia]. destruct EF' as [EB <-].
              eexists _, false. split; [apply (recv_bit_read r b (e_ptr s) _ rest blk false Nb); repeat split; auto; lia|].
              split; [reflexivity|]. cbn [e_hash e_digests]. intro Hk. destruct (Hh Hk) as [-> ->]. now rewrite EB. }
          destruct X as (r1 & fresh & Er1 & Dr1 & Hh1).
          assert (I1 : Inv hk s1 r1 F1 rest).
          { split; [easy|]. destruct (Nat.eq_dec (S (e_ptr s)) NB) as [EN|EN].
            - destruct (B1 EN) as (-> & P1 & H1). split; [lia|]. left. rewrite Dr1 in *. cbn [e_ptr e_hash e_digests] in *.
              repeat split; auto; try (rewrite H1; now apply Hh1). rewrite Dg. now apply Hh1.
            - destruct (B2 EN) as (-> & P1 & H1). split; [lia|]. right. rewrite P1. rewrite Dr1 in *.
              cbn [e_ptr e_buf e_hash e_digests app] in *. rewrite H1, Dg.
              split; [lia|]. split; [easy|]. split; [easy|]. split; [easy|]. split; [easy|]. intro Hk. now apply Hh1. }
          destruct (IH false s1 r1 s2 F1 rest W ltac:(easy) Hhk I1 E1 Z) as (r' & Er' & Hp' & Hr' & Hs' & Hh').
          exists r'. cbn [r_run r_act]. rewrite Er1, Er'. rewrite Dr1 in Hr'. cbn [e_reads] in Hr'. rewrite Rd in Hs'.
          rewrite <- app_assoc in Hr'. auto.
        * (* transfer *)
          cbn [wf] in W. apply andb_prop in W. destruct W as [-> W]. specialize (Hal eq_refl).
          destruct D as [(P & Pr & -> & Hh)|(P & _)]; [|lia]. cbn [wfh] in *.
          destruct fs; cbn [sq] in Ea; injection Ea as <- <-.
          -- assert (I1 : Inv hk s (add_read r (RdData b)) F1 F1).
             { split; [easy|]. split; [easy|]. left. auto. }
             destruct (IH true _ _ s2 F1 F1 W (fun _ => Hal) Hhk I1 E1 Z) as (r' & Er' & Hp' & Hr' & Hs' & Hh').
             exists r'. cbn [r_run r_act]. unfold raw_read.
             destruct (Nat.ltb_spec (length (b ++ F1)) (length b)) as [X|_]; [rewrite app_length in X; lia|].
             rewrite firstn_app, firstn_all, Nat.sub_diag, firstn_O, app_nil_r.
             rewrite skipn_app, skipn_all, Nat.sub_diag. cbn [app skipn]. fold (add_read r (RdData b)). rewrite Er'.
             cbn [exp_r exp_s pay_rs app]. cbn [add_read e_reads] in Hr'. rewrite <- app_assoc in Hr'. auto.
          -- assert (I1 : Inv hk (add_read s (RdData b)) r F1 F1).
             { split; [easy|]. split; [easy|]. left. auto. }
             destruct (IH true (add_read s (RdData b)) r s2 F1 F1 W (fun _ => Hal) Hhk I1 E1 Z) as (r' & Er' & Hp' & Hr' & Hs' & Hh').
             exists r'. cbn [r_run r_act app]. rewrite Er'.
             cbn [exp_r exp_s pay_rs app]. cbn [add_read e_reads] in Hs'. rewrite <- app_assoc in Hs'. auto.
        * (* hash *)
          cbn [wf wfh sq] in *. injection Ea as <- <-. cbn [app].
          assert (I1 : Inv hk (get_hash reset s) (get_hash reset r) F1 ch).
          { split; [easy|]. split; [easy|].
            destruct D as [(P & Pr & Ech & Hh)|(P & Pr & Lr & Fr & EF & Hh)]; [left|right];
              cbn [get_hash e_ptr e_buf e_hash e_digests].
            - split; [easy|]. split; [easy|]. split; [exact Ech|]. intro Hk. destruct (Hh Hk) as [-> ->]. auto.
            - split; [easy|]. split; [easy|]. split; [easy|]. split; [easy|]. split; [exact EF|]. intro Hk.
              specialize (Hhk Hk). apply andb_prop in Hhk. destruct Hhk as [-> _]. specialize (Hal eq_refl). lia. }
          assert (Hhk' : hk = true -> wfh al l = true) by (intro Hk; specialize (Hhk Hk); now apply andb_prop in Hhk).
          destruct (IH al (get_hash reset s) (get_hash reset r) s2 F1 ch W Hal Hhk' I1 E1 Z) as (r' & Er' & Hp' & Hr' & Hs' & Hh').
          exists r'. cbn [r_run r_act]. rewrite Er'. auto.
  Qed.
End Sync.
